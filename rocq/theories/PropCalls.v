(** Properties C04-C10, C12, C59: the scheduling calls. *)
From Coq Require Import QArith Lqa List Bool Arith ZArith Lia.
From Verif Require Import Base Kernel Wp KernelE KernelL KernelX KernelT KernelU KernelR KernelQ KernelS KernelI KernelP KernelO PropSched.
Import ListNotations.
Open Scope Q_scope.

(** [pending c t s]: c has exactly one event on the event list, for time t *)
Definition pending (c : nat) (t : Q) (s : env) : Prop :=
  exists e, In e (evl s) /\ e_c e = c /\ e_t e == t /\ forall e', In e' (evl s) -> e_c e' = c -> e' = e.
Definition no_event (c : nat) (s : env) : Prop := forall e, In e (evl s) -> e_c e <> c.
(** c is in no requesters, waiters or store requesters queue, and in no standby list *)
Definition nowhere (c : nat) (s : env) : Prop :=
  (forall r, ~ In c (map fst (qs s (QReq r)))) /\ (forall st, ~ In c (map fst (qs s (QWait st)))) /\
  (forall k, ~ In c (map fst (qs s (QFrom k))) /\ ~ In c (map fst (qs s (QTo k)))) /\ ~ In c (stby s) /\ ~ In c (pend s).

Lemma evs_pending : forall c s e, evs c s = [e] -> pending c (e_t e) s.
Proof.
  intros c s e E. assert (H : forall x, In x (evs c s) <-> In x (evl s) /\ e_c x = c).
  { intros x. unfold evs. rewrite filter_In, Nat.eqb_eq. tauto. }
  rewrite E in H. exists e. destruct (proj1 (H e) (or_introl eq_refl)) as (A & B). split; [auto|]. split; [auto|]. split; [lra|].
  intros x I J. destruct (proj2 (H x) (conj I J)) as [K|[]]; auto.
Qed.
Lemma evs_none : forall c s, evs c s = [] -> no_event c s.
Proof.
  intros c s E e I C. assert (H : In e (evs c s)) by (unfold evs; rewrite filter_In, Nat.eqb_eq; auto). rewrite E in H. destruct H.
Qed.
Lemma out_nowhere : forall c s, out c s -> nowhere c s.
Proof.
  intros c s (N & L). unfold LS in L. rewrite in_app_iff in L.
  split; [intros r; apply (N (QReq r)); auto|]. split; [intros r; apply (N (QWait r)); auto|].
  split; [intros k; split; [apply (N (QFrom k)) | apply (N (QTo k))]; auto | tauto].
Qed.
Lemma started_t : forall s, reach_t s -> started s.
Proof. intros. apply reach_started, reach_t_reach; auto. Qed.
Lemma started_calls : forall s s', started s -> calls s s' -> started s'.
Proof.
  intros s s' (t0 & R & sv & kc & hp & y & d & C) K. exists t0, R, sv, kc, hp, y, d.
  induction K as [|a b n o b1 r K IH E]; [auto|]. eapply calls_step; [apply IH; auto | exact E].
Qed.
Lemma started_exec : forall s n o s' r, started s -> exec n o s = (s', r) -> started s'.
Proof. intros. eapply started_calls; eauto. eapply calls_step; [constructor | eauto]. Qed.
(** the core: a component that is nowhere registered keeps its event and is made current by it, at its time *)
Lemma keeps_event : forall c s0 e, started s0 -> out c s0 -> evs c s0 = [e] -> forall s', idle_of c s0 s' ->
  evs c s' = [e] /\ c_status (comps s' c) = c_status (comps s0 c) /\ now s' <= e_t e /\ out c s' /\
  forall m s'' r, exec m OStep s' = (s'', r) -> cur s'' = c -> now s'' = e_t e /\ forall x, In x (evl s') -> ev_le e x.
Proof.
  intros c s0 e H O E s' I. pose proof (started_Seqs _ H) as SQ. destruct (idle_of_keep _ _ _ I SQ O) as (O' & K).
  pose proof (started_calls _ _ H (idle_of_calls _ _ _ I)) as H'.
  assert (E' : evs c s' = [e]) by (destruct K as (_ & -> & _); auto).
  assert (IN : In e (evl s')).
  { assert (J : In e (evs c s')) by (rewrite E'; left; auto). unfold evs in J. apply filter_In in J. tauto. }
  split; [auto|]. split; [apply (keep_fields _ _ _ K)|]. split; [apply (started_Fut _ H' e); auto|]. split; [auto|].
  intros m s'' r X C. pose proof (w_step_pop m s' (started_Seqs _ H')) as W. unfold wp in W. cbn [exec] in X. rewrite X in W.
  assert (T : ~ standby_turn s' c).
  { intros (_ & P & _). apply (proj2 O'). unfold LS. rewrite in_app_iff. right. destruct (pend s'); cbn in P; [discriminate|]. injection P as ->. left; auto. }
  assert (V : (exists e0, In e0 (evl s') /\ ~ In e0 (evl s'') /\ e_c e0 = cur s'' /\ now s'' = e_t e0 /\ (forall x, In x (evl s') -> ev_le e0 x)) ->
    now s'' = e_t e /\ forall x, In x (evl s') -> ev_le e x).
  { intros (e0 & A & _ & B & D & M). rewrite C in B. assert (J : In e0 (evs c s')) by (unfold evs; rewrite filter_In, Nat.eqb_eq; auto).
    rewrite E' in J. destruct J as [<-|[]]. auto. }
  destruct r; destruct W as [(W & _)|(_ & W)]; try (rewrite C in W; contradiction); auto.
  destruct W as [(W & _)|W]; auto. rewrite W in IN. destruct IN.
Qed.
Lemma keeps_away : forall c s0, started s0 -> out c s0 -> evs c s0 = [] -> forall s', idle_of c s0 s' ->
  evs c s' = [] /\ c_status (comps s' c) = c_status (comps s0 c) /\ out c s' /\
  forall m s'' r, exec m OStep s' = (s'', r) -> cur s'' = c -> c = main /\ evl s' = [].
Proof.
  intros c s0 H O E s' I. pose proof (started_Seqs _ H) as SQ. destruct (idle_of_keep _ _ _ I SQ O) as (O' & K).
  pose proof (started_calls _ _ H (idle_of_calls _ _ _ I)) as H'.
  assert (E' : evs c s' = []) by (destruct K as (_ & -> & _); auto).
  split; [auto|]. split; [apply (keep_fields _ _ _ K)|]. split; [auto|].
  intros m s'' r X C. pose proof (w_step_pop m s' (started_Seqs _ H')) as W. unfold wp in W. cbn [exec] in X. rewrite X in W.
  assert (T : ~ standby_turn s' c).
  { intros (_ & P & _). apply (proj2 O'). unfold LS. rewrite in_app_iff. right. destruct (pend s'); cbn in P; [discriminate|]. injection P as ->. left; auto. }
  assert (V : ~ (exists e0, In e0 (evl s') /\ ~ In e0 (evl s'') /\ e_c e0 = cur s'' /\ now s'' = e_t e0 /\ (forall x, In x (evl s') -> ev_le e0 x))).
  { intros (e0 & A & _ & B & _). rewrite C in B. apply (evs_none _ _ E' e0); auto. }
  destruct r; destruct W as [(W & _)|(_ & W)]; try (rewrite C in W; contradiction); try tauto.
  destruct W as [(W & W' & _)|W]; [|tauto]. split; congruence.
Qed.
(** after a call that deregisters c and gives it another status than standby, c is nowhere *)
Lemma free_out : forall c s, PI s -> free c s -> c_status (comps s c) <> Standby -> out c s.
Proof. intros c s [Q S] (A & B) N. split; [apply QI_NQ; auto | apply notin_st; auto]. Qed.
Lemma wp_exec : forall n o s s' r (Q : unit -> env -> Prop) X, exec n o s = (s', r) -> wp (exec n o) Q X s ->
  match r with Ok a => Q a s' | Er e => X e s' end.
Proof. unfold wp. intros n o s s' r Q X E W. rewrite E in W. auto. Qed.
Lemma hold_out : forall n c sp p u cap s s0 t, reach_t s -> ended s = false -> hold_time sp s = Some t ->
  exec n (OHold c sp p u 0 cap) s = (s0, Ok tt) ->
  out c s0 /\ c_status (comps s0 c) = Scheduled /\ booked c (eff t s) p u s s0 /\ (xltb t (Fin (now s)) = true -> capped cap s = true).
Proof.
  intros n c sp p u cap s s0 t H N T E. pose proof (reach_t_PI _ H) as P.
  assert (P0 : PI s0). { eapply PI_exec with (o := OHold c sp p u 0 cap); [exact P | split; [exact N | exact Logic.I] | exact E | discriminate]. }
  pose proof (wp_exec _ _ _ _ _ _ _ E (hold_post c sp p u cap s t P T)) as (A & B & _ & D).
  pose proof (wp_exec _ _ _ _ _ _ _ E (hold_free c sp p u 0 cap s (ki_l _ (qi_k _ (pi_q _ P))) (qi_r _ (pi_q _ P)))) as F. cbn in F.
  split; [|auto]. apply free_out; auto. rewrite D. discriminate.
Qed.

(** ** C04 *)
Theorem C04_hold_exact : forall s n c d p u cap s0, reach_t s -> ended s = false -> 0 <= d ->
  exec n (OHold c (SDur (Fin d)) p u 0 cap) s = (s0, Ok tt) ->
  forall s', idle_of c s0 s' ->
    c_status (comps s' c) = Scheduled /\ pending c (now s + d) s' /\ now s' <= now s + d /\
    forall m s'' r, exec m OStep s' = (s'', r) -> cur s'' = c -> now s'' == now s + d.
Proof.
  intros s n c d p u cap s0 H N D E s' I.
  destruct (hold_out n c (SDur (Fin d)) p u cap s s0 _ H N eq_refl E) as (O & S & B & _). cbn [xadd] in B.
  assert (F : eff (Fin (now s + d)) s = Fin (now s + d)).
  { unfold eff. replace (xltb (Fin (now s + d)) (Fin (now s))) with false; auto. symmetry. cbn. unfold Qltb. apply negb_false_iff, Qle_bool_iff. lra. }
  rewrite F in B. destruct (booked_evs _ _ _ _ _ _ B) as (k & _ & V).
  destruct (keeps_event c s0 _ (started_exec _ _ _ _ _ (started_t _ H) E) O V s' I) as (A1 & A2 & A3 & _ & A4). cbn in A3, A4.
  split; [congruence|]. split; [apply (evs_pending _ _ _ A1)|]. split; [auto|].
  intros m s'' r X C. destruct (A4 m s'' r X C) as (-> & _). reflexivity.
Qed.
(** the state after a script of calls, used in the examples *)
Definition st (e : env) (l : list op) : env := match script 19 l e with Some s => s | None => e end.
Definition run1 (o : op) (s : env) : env := fst (exec 19 o s).
Definition oks (e : env) (l : list op) : bool := match script 19 l e with Some _ => true | None => false end.
Lemma st_reach_t : forall l t0 R sv kc hp y d, oks (init t0 R sv kc hp y d) l = true -> reach_t (st (init t0 R sv kc hp y d) l).
Proof.
  unfold oks, st. intros l t0 R sv kc hp y d H. exists t0, R, sv, kc, hp, y, d.
  destruct (script 19 l (init t0 R sv kc hp y d)) eqn:E; [|discriminate]. eapply script_runs_t; eauto.
Qed.
Lemma run1_ok : forall o s, snd (exec 19 o s) = Ok tt -> exec 19 o s = (run1 o s, Ok tt).
Proof. intros o s H. unfold run1. rewrite <- H. apply surjective_pairing. Qed.
Lemma run1_er : forall o s e, snd (exec 19 o s) = Er e -> exec 19 o s = (run1 o s, Er e).
Proof. intros o s e H. unfold run1. rewrite <- H. apply surjective_pairing. Qed.
Lemma run1_any : forall o s, exec 19 o s = (run1 o s, snd (exec 19 o s)).
Proof. intros. apply surjective_pairing. Qed.
Lemma idle2 : forall x o1 o2 s, ~ directed x s o1 -> ~ directed x (run1 o1 s) o2 -> o1 <> OStep -> o2 <> OStep -> idle_of x s (run1 o2 (run1 o1 s)).
Proof.
  intros x o1 o2 s A B C D. eapply io_step with (o := o2); [eapply io_step with (o := o1); [constructor | apply run1_any | auto | tauto] | apply run1_any | auto | tauto].
Qed.
(** component 1 holds 3 at time 2, component 2 is rescheduled to 10 and main interferes with a resource; the next step
    makes component 1 current at 5 *)
Example C04_case : let s := st env0 (firstn 4 two_holds) in let o := OHold 1 (SDur (Fin 3)) (Fin 0) true 0 None in
  let s1 := run1 (OHold 2 (SDur (Fin 8)) (Fin 0) false 0 None) (run1 o s) in let s' := run1 (OSetCap 0 (Fin 1)) s1 in
  reach_t s /\ ended s = false /\ exec 19 o s = (run1 o s, Ok tt) /\ idle_of 1 (run1 o s) s' /\ now s == 2 /\
  cur (run1 OStep s') = 1%nat /\ now (run1 OStep s') == 5.
Proof.
  intros s o s1 s'. split; [apply st_reach_t; vm_compute; reflexivity|]. split; [vm_compute; reflexivity|]. split; [apply run1_ok; vm_compute; reflexivity|].
  split; [|repeat split; vm_compute; reflexivity].
  unfold s', s1. generalize (run1 o s). clear. intros s. apply idle2; discriminate || tauto.
Qed.

(** ** C05 *)
Definition past (t : xq) (s : env) : Prop := xlt t (Fin (now s)).
Definition cap_in_effect (cap : option bool) (s : env) : Prop :=
  match cap with Some b => b = true | None => defcap s = true end.
(** the component and the time for which a call schedules it, and its cap_now argument; times on the internal scale *)
Definition asked (s : env) (o : op) : option (nat * xq * option bool) :=
  match o with
  | OCreate c None d _ _ _ cap | OActivate c None d _ _ _ _ _ cap => Some (c, xadd (Fin (now s)) d, cap)
  | OCreate c (Some a) d _ _ _ cap | OActivate c (Some a) d _ _ _ _ _ cap => Some (c, xadd (xaddq a (off s)) d, cap)
  | OHold c SNone _ _ 0%Z cap => Some (c, Fin (now s), cap)
  | OHold c (SDur d) _ _ 0%Z cap => Some (c, xadd (Fin (now s)) d, cap)
  | OHold c (STill t) _ _ 0%Z cap => Some (c, xaddq t (off s), cap)
  | ORun SNone _ _ cap => Some (main, PInf, cap)
  | ORun (SDur d) _ _ cap => Some (main, xadd (Fin (now s)) d, cap)
  | ORun (STill t) _ _ cap => Some (main, xaddq t (off s), cap)
  | OResume c all _ _ =>
      match c_status (comps s c) with
      | Interrupted => if all || (c_ilevel (comps s c) =? 1)%Z then Some (c, xadd (Fin (now s)) (c_rem (comps s c)), Some false) else None
      | _ => None
      end
  | ORemaining c v _ _ =>
      match c_status (comps s c) with
      | Scheduled | Requesting | Waiting => Some (c, xadd v (Fin (now s)), Some false)
      | _ => None
      end
  | _ => None
  end.
Lemma capped_iff : forall cap s, capped cap s = true <-> cap_in_effect cap s.
Proof. intros [[]|] s; cbn; tauto. Qed.
Lemma asked_post : forall n o s c t cap, PI s -> wf s o -> asked s o = Some (c, t, cap) ->
  exists p u, wp (exec n o)
    (fun _ s' => (xltb t (Fin (now s)) = true -> capped cap s = true) /\ booked c (eff t s) p u s s' /\ now s' = now s)
    (fun e s' => incl (evl s') (evl s) /\ (xltb t (Fin (now s)) = true /\ capped cap s = false /\ e = ValueErr \/
       c_status (comps s c) = Data)) s.
Proof.
  intros n o s c t cap P (_ & W) A.
  destruct o; cbn in A; try discriminate.
  - assert (E : c0 = c /\ at_time at_ delay s = t /\ cap0 = cap) by (destruct at_; injection A; auto). destruct E as (-> & <- & ->).
    exists prio, urgent. cbn [exec]. eapply wp_conseq; [apply create_post; auto; apply W | |]; cbv beta; tauto.
  - assert (E : c0 = c /\ at_time at_ delay s = t /\ cap0 = cap) by (destruct at_; injection A; auto). destruct E as (-> & <- & ->).
    exists prio, urgent. cbn [exec]. eapply wp_conseq; [apply activate_post; auto | |]; cbv beta; tauto.
  - assert (E : c0 = c /\ hold_time sp s = Some t /\ cap0 = cap /\ inter = 0%Z) by (destruct sp; destruct inter; try discriminate; injection A; intros; subst; auto).
    destruct E as (-> & T & -> & ->).
    exists prio, urgent. cbn [exec]. eapply wp_conseq; [apply hold_post; eauto | |]; cbv beta; tauto.
  - destruct (c_status (comps s c0)) eqn:S; try discriminate. destruct (all || (c_ilevel (comps s c0) =? 1)%Z) eqn:L; [|discriminate].
    injection A as <- <- <-. exists prio, urgent. cbn [exec]. eapply wp_conseq; [apply resume_post; auto | |]; cbv beta; cbn [capped]; [|tauto|tauto].
    apply orb_true_iff in L. rewrite Z.eqb_eq in L. tauto.
  - assert (E : c0 = c /\ xadd v (Fin (now s)) = t /\ Some false = cap /\ schedst (c_status (comps s c0))).
    { destruct (c_status (comps s c0)); try discriminate; injection A; intros; subst; unfold schedst; auto 10. }
    destruct E as (-> & <- & <- & S). exists prio, urgent. cbn [exec]. eapply wp_conseq; [apply remaining_post; auto | |]; cbv beta; cbn [capped]; tauto.
  - assert (E : main = c /\ run_time sp s = Some t /\ cap0 = cap) by (destruct sp; try discriminate; injection A; intros; subst; auto).
    destruct E as (<- & T & ->). exists prio, urgent. cbn [exec]. eapply wp_conseq; [apply run_post; eauto; apply W | |]; cbv beta; tauto.
Qed.
(** A scheduling call that returns normally has made the component's only event for the time asked, or for now if that time is past
    and cap_now is in effect; a call that raises has made no event; and a call for a past time without cap_now raises ValueError
    (unless the component is a data component, for which it may raise another exception). *)
Theorem C05_past_rejected_or_capped : forall s n o s' r c t cap, reach_t s -> wf s o -> asked s o = Some (c, t, cap) -> exec n o s = (s', r) ->
  match r with
  | Ok _ => (past t s -> cap_in_effect cap s /\ pending c (now s) s') /\
            (~ past t s -> c_sched (comps s' c) = t /\ forall q, t = Fin q -> pending c q s')
  | Er e => (forall x, In x (evl s') -> In x (evl s)) /\
            (c_status (comps s c) <> Data -> e = ValueErr /\ past t s /\ ~ cap_in_effect cap s)
  end.
Proof.
  intros s n o s' r c t cap H W A E. destruct (asked_post n o s c t cap (reach_t_PI _ H) W A) as (p & u & K).
  pose proof (wp_exec _ _ _ _ _ _ _ E K) as V. destruct r as [a|e].
  - destruct V as (V1 & V2 & V3). unfold past. rewrite <- xltb_iff, <- capped_iff. unfold eff in V2. split; intros L.
    + rewrite L in V2. split; auto. destruct (booked_evs _ _ _ _ _ _ V2) as (k & _ & X). apply (evs_pending _ _ _ X).
    + apply not_true_is_false in L. rewrite L in V2. split; [apply V2|]. intros q ->. destruct (booked_evs _ _ _ _ _ _ V2) as (k & _ & X).
      apply (evs_pending _ _ _ X).
  - destruct V as (V1 & V2). split; [exact V1|]. intros ND. destruct V2 as [(V2 & V3 & V4)|V2]; [|contradiction].
    split; [auto|]. split; [apply xltb_iff; auto|]. rewrite <- capped_iff. congruence.
Qed.
(** request, wait, wait_for, from_store, to_store: if the component is still registered when the call returns, its time limit has been
    treated in the same way *)
Definition limit_of (s : env) (o : op) : option (nat * spec * option bool * (comp -> Prop)) :=
  match o with
  | ORequest c _ _ f _ _ cap => Some (c, f, cap, fun x => c_requests x <> [])
  | OWait c _ _ f _ _ cap | OWaitFor c _ _ f _ _ cap => Some (c, f, cap, fun x => c_waits x <> [])
  | OFromStore c _ _ _ _ f _ _ cap => Some (c, f, cap, fun x => c_from x <> [])
  | OToStore c _ _ _ _ f _ _ cap => Some (c, f, cap, fun x => c_to x <> [])
  | _ => None
  end.
Definition limit_time (sp : spec) (s : env) : option xq :=
  match sp with SNone => Some PInf | SDur d => Some (xadd (Fin (now s)) d) | STill t => Some (xaddq t (off s)) | SBoth => None end.
Theorem C05_time_limits : forall s n o s' c f cap reg t, reach_t s -> wf s o -> limit_of s o = Some (c, f, cap, reg) -> limit_time f s = Some t ->
  exec n o s = (s', Ok tt) -> reg (comps s' c) ->
  (past t s -> cap_in_effect cap s /\ pending c (now s) s') /\
  (~ past t s -> c_sched (comps s' c) = t /\ forall q, t = Fin q -> pending c q s').
Proof.
  intros s n o s' c f cap reg t H W L T E G. pose proof (reach_t_PI _ H) as P.
  assert (P' : PI s') by (eapply PI_exec; eauto; discriminate).
  assert (Z : (0 <= seq s)%Z) by apply P. assert (R : RI s) by apply P.
  assert (K : exists p u, limited c t p u cap s s').
  { destruct o; cbn in L; try discriminate; injection L as <- <- <- <-; exists prio, urgent || exists fprio, urgent.
    - pose proof (wp_exec _ _ _ _ _ _ _ E (request_limit n c0 args oneof fail prio urgent cap0 s t Z (proj1 (proj2 (proj2 W))) T)) as V. auto.
    - pose proof (wp_exec _ _ _ _ _ _ _ E (wait_limit c0 args all fail prio urgent cap0 s t Z T)) as V. auto.
    - pose proof (wp_exec _ _ _ _ _ _ _ E (wait_for_limit c0 cond states fail prio urgent cap0 s t Z T)) as V. auto.
    - pose proof (wp_exec _ _ _ _ _ _ _ E (from_store_limit n c0 stores f0 key rprio fail fprio urgent cap0 s t R Z T)) as V. auto.
    - pose proof (wp_exec _ _ _ _ _ _ _ E (to_store_limit n c0 stores i rprio p fail fprio urgent cap0 s t R Z T)) as V. auto. }
  destruct K as (p & u & A & B & C). unfold past. rewrite <- xltb_iff, <- capped_iff.
  assert (D : forall q, eff t s = Fin q -> pending c q s').
  { intros q Q. rewrite Q in C. destruct C as (k & _ & C).
    apply (evs_pending c s' (mkEv q p (if u then - k else k)%Z c)), evs_sched; auto. apply P'. }
  unfold eff in *. split; intros X.
  - rewrite X in *. auto.
  - apply not_true_is_false in X. rewrite X in *. auto.
Qed.
(** hold(-1) by the current component at time 2: rejected; with cap_now: an event for now; and a request with a fail_delay *)
Example C05_case : let s := st env0 (firstn 4 two_holds) in
  let o cap := OHold 1 (SDur (Fin (-(1)))) (Fin 0) false 0 cap in
  reach_t s /\ wf s (o None) /\ asked s (o None) = Some (1%nat, Fin (2 + -(1)), None) /\
  exec 19 (o None) s = (run1 (o None) s, Er ValueErr) /\ exec 19 (o (Some true)) s = (run1 (o (Some true)) s, Ok tt) /\
  let q := ORequest 1 [(0%nat, 4, Fin 0)] false (SDur (Fin 7)) (Fin 0) false None in
  wf s q /\ exec 19 q s = (run1 q s, Ok tt) /\ c_requests (comps (run1 q s) 1) <> [].
Proof.
  intros s o. split; [apply st_reach_t; vm_compute; reflexivity|]. split; [apply wfb_wf; vm_compute; reflexivity|].
  split; [vm_compute; reflexivity|]. split; [apply run1_er; vm_compute; reflexivity|]. split; [apply run1_ok; vm_compute; reflexivity|].
  intros q. split; [apply wfb_wf; vm_compute; reflexivity|]. split; [apply run1_ok; vm_compute; reflexivity | vm_compute; discriminate].
Qed.

(** ** C06 *)
(** The full claim: a rejected call leaves the event of the component where it was.  It does not hold: hold, activate and
    remaining_duration take the component off the event list before they find out that the time is past. *)
Definition keeps_schedule (o : op) (c : nat) : Prop :=
  forall s n s' e t, reach_t s -> wf s o -> exec n o s = (s', Er e) -> c_status (comps s c) = Scheduled -> pending c t s -> pending c t s'.
Lemma not_keeps : forall o c t l, oks env0 l = true -> wfb (st env0 l) o = true -> snd (exec 19 o (st env0 l)) = Er ValueErr ->
  c_status (comps (st env0 l) c) = Scheduled -> pending c t (st env0 l) -> evs c (run1 o (st env0 l)) = [] -> ~ keeps_schedule o c.
Proof.
  intros o c t l A B C D E F K. specialize (K _ 19%nat _ _ t (st_reach_t _ _ _ _ _ _ _ _ A) (wfb_wf _ _ B) (run1_er _ _ _ C) D E).
  destruct K as (e & I & J & _). eapply evs_none; eauto.
Qed.
Theorem C06_hold_refuted : exists c d, ~ keeps_schedule (OHold c (SDur (Fin d)) (Fin 0) false 0 None) c.
Proof.
  exists 2%nat, (-(1)). apply (not_keeps _ _ 5 (firstn 4 two_holds)); try (vm_compute; reflexivity).
  apply (evs_pending 2 _ (mkEv 5 (Fin 0) 2 2)). vm_compute. reflexivity.
Qed.
Theorem C06_activate_refuted : exists c t, ~ keeps_schedule (OActivate c (Some (Fin t)) (Fin 0) (Fin 0) false false false false None) c.
Proof.
  exists 2%nat, 1. apply (not_keeps _ _ 5 (firstn 4 two_holds)); try (vm_compute; reflexivity).
  apply (evs_pending 2 _ (mkEv 5 (Fin 0) 2 2)). vm_compute. reflexivity.
Qed.
Theorem C06_remaining_refuted : exists c v, ~ keeps_schedule (ORemaining c (Fin v) (Fin 0) false) c.
Proof.
  exists 2%nat, (-(1)). apply (not_keeps _ _ 5 (firstn 4 two_holds)); try (vm_compute; reflexivity).
  apply (evs_pending 2 _ (mkEv 5 (Fin 0) 2 2)). vm_compute. reflexivity.
Qed.
(** What holds: a rejected hold of a current or passive component (in particular: of the component by itself) changes nothing at all. *)
Theorem C06_rejected_hold_partial : forall s n c sp p u i cap s' e, c_status (comps s c) = Current \/ c_status (comps s c) = Passive ->
  exec n (OHold c sp p u i cap) s = (s', Er e) -> s' = s.
Proof.
  intros s n c sp p u i cap s' e S E. cbn [exec] in E. unfold hold, bind, stat, get in E. cbv beta in E.
  replace (negb (steqb (c_status (comps s c)) Passive) && negb (steqb (c_status (comps s c)) Current)) with false in E
    by (destruct S as [S|S]; rewrite S; auto). cbn [when ret] in E. unfold ret in E.
  set (k := fun t => if xltb t (Fin (now s)) then if capped cap s then Some (Fin (now s)) else None else Some t).
  assert (K : forall t, (let (s1, r) := (if xltb t (Fin (now s)) then
        fun s0 : env => (if capped cap s0 then fun s1 : env => (s1, Ok (Fin (now s1))) else raise ValueErr) s0 else fun s0 => (s0, Ok t)) s in
        match r with Ok a => (if negb (i =? 0)%Z then fun s2 : env => (m_comp c (w_status Interrupted) (m_comp c (w_ilevel i) (m_comp c (w_istat Scheduled) (m_comp c (w_rem (xsubq a (now s2))) s2))), Ok tt)
           else fun s2 => reschedule c a p u cap (m_comp c (w_status Scheduled) s2)) s1 | Er e0 => (s1, Er e0) end) = (s', Er e) -> s' = s).
  { intros t H. destruct (xltb t (Fin (now s))) eqn:L; [destruct (capped cap s) eqn:C|].
    - destruct (negb (i =? 0)%Z); [discriminate|]. pose proof (w_reschedule c (Fin (now s)) p u cap (m_comp c (w_status Scheduled) s)) as W.
      unfold wp in W. rewrite H in W. destruct W as (_ & _ & W & _). cbn in W. unfold xltb in W. cbn in W. apply negb_true_iff in W.
      assert (Qle_bool (now s) (now s) = true) by (apply Qle_bool_iff; lra). congruence.
    - injection H as <- _. auto.
    - destruct (negb (i =? 0)%Z); [discriminate|]. pose proof (w_reschedule c t p u cap (m_comp c (w_status Scheduled) s)) as W.
      unfold wp in W. rewrite H in W. destruct W as (_ & _ & W & _). change (now (m_comp c (w_status Scheduled) s)) with (now s) in W. congruence. }
  destruct sp as [|d|t|]; [| | |injection E as <- _; auto].
  - apply (K (Fin (now s))). exact E.
  - apply (K (xadd (Fin (now s)) d)). exact E.
  - apply (K (xaddq t (off s))). exact E.
Qed.
Example C06_case : let s := st env0 (firstn 4 two_holds) in exists s' e,
  c_status (comps s 1) = Current /\ exec 19 (OHold 1 (SDur (Fin (-(1)))) (Fin 0) false 0 None) s = (s', Er e).
Proof. intros s. exists (run1 (OHold 1 (SDur (Fin (-(1)))) (Fin 0) false 0 None) s), ValueErr. split; [|apply run1_er]; vm_compute; reflexivity. Qed.

(** ** C07 *)
Lemma idle_out : forall c s, PI s -> c_status (comps s c) = Passive \/ c_status (comps s c) = Data -> out c s /\ evs c s = [].
Proof.
  intros c s P S. pose proof P as [Q B]. split.
  - apply free_out; auto; [|destruct S as [S|S]; rewrite S; discriminate].
    apply free_idle; [apply Q | apply Q|]. destruct S as [S|S]; rewrite S; auto with idle.
  - apply evs_off; [apply Q|]. apply EI_stat_off; [apply Q|]. intros [K|[K|K]]; destruct S; congruence.
Qed.
Theorem C07_not_resumed : forall s n o c s0, reach_t s -> ended s = false -> c <> main -> o = OPassivate c \/ o = OCancel c ->
  exec n o s = (s0, Ok tt) ->
  forall s', idle_of c s0 s' -> no_event c s' /\ nowhere c s' /\ forall m s'' r, exec m OStep s' = (s'', r) -> cur s'' <> c.
Proof.
  intros s n o c s0 H N NM O E s' I. pose proof (reach_t_PI _ H) as P.
  assert (P0 : PI s0). { apply (PI_exec n o s s0 (Ok tt)); auto; [|discriminate]. split; auto. destruct O; subst; exact Logic.I. }
  assert (S : c_status (comps s0 c) = Passive \/ c_status (comps s0 c) = Data).
  { destruct O; subst; cbn [exec] in E.
    - left. assert (W : wp (passivate c) (fun _ s' => c_status (comps s' c) = Passive) (fun _ _ => True) s).
      { unfold passivate. apply wp_bind, wp_stat. apply wp_skip; intros _ s1. apply wp_bind, wp_setc, wp_setc. rewrite comps_same. auto. }
      unfold wp in W. rewrite E in W. auto.
    - right. assert (W : wp (cancel n c) (fun _ s' => c_status (comps s' c) = Data) (fun _ _ => True) s).
      { unfold cancel. apply wp_bind, wp_stat. apply wp_if; intros C; [apply steqb_iff in C; apply wp_ret; auto|].
        apply wp_skip; intros ? ?. apply wp_skip; intros ? ?. apply wp_skip; intros ? ?. apply wp_bind, wp_setc, wp_setc. rewrite comps_same. auto. }
      unfold wp in W. rewrite E in W. auto. }
  destruct (idle_out c s0 P0 S) as (O1 & O2).
  destruct (keeps_away c s0 (started_exec _ _ _ _ _ (started_t _ H) E) O1 O2 s' I) as (A1 & A2 & A3 & A4).
  split; [apply evs_none; auto|]. split; [apply out_nowhere; auto|]. intros m s'' r X C. destruct (A4 _ _ _ X C). contradiction.
Qed.
(** component 2, scheduled for 5 and requesting, is cancelled by component 1; component 1 goes on *)
Example C07_case : let s := st env0 (firstn 4 two_holds) in let s0 := run1 (OCancel 2) s in
  let s' := run1 (OSet 0 1%Z) (run1 (OHold 1 (SDur (Fin 9)) (Fin 0) false 0 None) s0) in
  reach_t s /\ ended s = false /\ exec 19 (OCancel 2) s = (s0, Ok tt) /\ pending 2 5 s /\ idle_of 2 s0 s' /\ now (run1 OStep s') == 11.
Proof.
  intros s s0 s'. split; [apply st_reach_t; vm_compute; reflexivity|]. split; [vm_compute; reflexivity|]. split; [apply run1_ok; vm_compute; reflexivity|].
  split; [apply (evs_pending 2 _ (mkEv 5 (Fin 0) 2 2)); vm_compute; reflexivity|].
  split; [|vm_compute; reflexivity]. unfold s'. generalize s0. clear. intros s. apply idle2; discriminate || tauto.
Qed.

(** ** C08 *)
Lemma nowhere_out : forall c s, nowhere c s -> out c s.
Proof.
  intros c s (A & B & C & D & E). split.
  - intros q R. unfold mem. destruct q; try discriminate; [apply A | apply B | apply C | apply C].
  - unfold LS. rewrite in_app_iff. tauto.
Qed.
Lemma pending_evs : forall c t s, EI s -> pending c t s -> exists e, evs c s = [e] /\ e_t e == t /\ c_sched (comps s c) = Fin (e_t e) /\ c_onev (comps s c) = true.
Proof.
  intros c t s H (e & A & B & C & D). exists e. split; [apply evs_sched; auto|]. split; auto. split; [subst c; apply ei_sched; auto|].
  apply ei_onev; auto. rewrite <- B. apply in_map; auto.
Qed.
Lemma interrupt_post : forall c s, EI s -> c_onev (comps s c) = true -> c_status (comps s c) = Scheduled ->
  wp (interrupt c) (fun _ s' => evs c s' = [] /\ c_status (comps s' c) = Interrupted /\ c_istat (comps s' c) = Scheduled /\ c_ilevel (comps s' c) = 1%Z /\
      c_rem (comps s' c) = xsubq (c_sched (comps s c)) (now s) /\ qs s' = qs s /\ stby s' = stby s /\ pend s' = pend s) (fun _ _ => False) s.
Proof.
  intros c s H O S. unfold interrupt. apply wp_bind, wp_stat. rewrite S. cbn [steqb orb negb].
  apply wp_bind. unfold check_notdata. apply wp_bind, wp_stat. rewrite S. cbn [steqb when].
  apply wp_ret. apply wp_bind. unfold remove. apply wp_bind, wp_get. rewrite O. apply wp_bind, wp_get.
  destruct (ev_del c (evl s)) as [l'|] eqn:D.
  - apply wp_bind, wp_put, wp_setc. apply wp_bind, wp_get. apply wp_bind, wp_setc. apply wp_bind, wp_setc. apply wp_bind, wp_setc. apply wp_setc.
    rewrite !comps_same. cbn [c_status c_istat c_ilevel c_rem w_status w_ilevel w_istat w_rem w_onev c_sched].
    change (comps (s_evl l' s)) with (comps s). rewrite S.
    split; [|repeat (split; [reflexivity|]); reflexivity].
    apply others_none with (s := s). pose proof (w_remove_others c s H) as W. unfold wp, remove, bind, get, put, setc in W. rewrite O, D in W. exact W.
  - exfalso. assert (I : In c (map e_c (evl s))) by (apply ei_onev; auto). clear - D I. revert D I.
    pose proof (fun l => ev_del_none c l) as K. intros D I. apply (K _ D I).
Qed.
(** [interrupted c s0 k s]: from s0, c has been interrupted and (once) resumed again so that k interrupts are open, and in between calls not
    directed at c have been made; s0 is the state right after the first interrupt *)
Inductive interrupted (c : nat) (s0 : env) : nat -> env -> Prop :=
| in_first : interrupted c s0 1 s0
| in_idle : forall k s s', interrupted c s0 k s -> idle_of c s s' -> interrupted c s0 k s'
| in_more : forall k s n s', interrupted c s0 k s -> exec n (OInterrupt c) s = (s', Ok tt) -> interrupted c s0 (S k) s'
| in_less : forall k s n p u s', interrupted c s0 (S (S k)) s -> exec n (OResume c false p u) s = (s', Ok tt) -> interrupted c s0 (S k) s'.
Definition asleep (c : nat) (rem : xq) (k : nat) (s : env) : Prop :=
  started s /\ out c s /\ evs c s = [] /\ c_status (comps s c) = Interrupted /\ c_istat (comps s c) = Scheduled /\ c_ilevel (comps s c) = Z.of_nat k /\ c_rem (comps s c) = rem.
Lemma out_same : forall c s s', out c s -> qs s' = qs s -> stby s' = stby s -> pend s' = pend s -> out c s'.
Proof. intros c s s' (A & B) E1 E2 E3. unfold out, NQ, mem, LS in *. rewrite E1, E2, E3. auto. Qed.
Lemma interrupted_asleep : forall c s0 rem, asleep c rem 1 s0 -> forall k s, interrupted c s0 k s -> asleep c rem k s.
Proof.
  intros c s0 rem H k s I. induction I as [|k s s' I IH J|k s n s' I IH E|k s n p u s' I IH E]; auto;
    destruct IH as (A1 & A2 & A3 & A4 & A5 & A6 & A7).
  - destruct (idle_of_keep _ _ _ J (started_Seqs _ A1) A2) as (O & K). pose proof (keep_fields _ _ _ K) as (F1 & _ & F3 & _ & F5 & F6 & _).
    split; [apply (started_calls _ _ A1), (idle_of_calls _ _ _ J)|]. split; auto. split; [destruct K as (_ & -> & _); auto|].
    rewrite F1, F3, F5, F6. auto.
  - pose proof (started_exec _ _ _ _ _ A1 E) as A1'. cbn [exec] in E. unfold interrupt, bind, stat, get in E. rewrite A4 in E. cbn in E. injection E as <-.
    split; [exact A1'|]. split; [apply (out_same c s); auto|]. split; [exact A3|].
    cbn [comps m_comp s_comps]. unfold upd. rewrite Nat.eqb_refl. cbn. rewrite A6. repeat (split; [auto; lia|]). auto.
  - pose proof (started_exec _ _ _ _ _ A1 E) as A1'. cbn [exec] in E. unfold resume, bind, stat, get, setc, put, ret in E. rewrite A4 in E. cbn [steqb] in E.
    rewrite comps_same in E. cbn [c_ilevel w_ilevel] in E. rewrite A6 in E.
    replace (negb (Z.of_nat (S (S k)) - 1 =? 0)%Z && negb false) with true in E by (destruct (Z.eqb_spec (Z.of_nat (S (S k)) - 1) 0); [lia | auto]).
    injection E as <-.
    split; [exact A1'|]. split; [apply (out_same c s); auto|]. split; [exact A3|]. rewrite comps_same. cbn [c_status c_istat c_ilevel c_rem w_ilevel]. rewrite A6.
    split; [auto|]. split; [auto|]. split; [lia | auto].
Qed.
Theorem C08_interrupt_resume : forall s n c T s0 r, reach_t s -> nowhere c s -> c_status (comps s c) = Scheduled -> pending c T s ->
  exec n (OInterrupt c) s = (s0, r) ->
  r = Ok tt /\ forall k s1, interrupted c s0 k s1 ->
    c_status (comps s1 c) = Interrupted /\ no_event c s1 /\
    (c <> main -> forall m s2 r2, exec m OStep s1 = (s2, r2) -> cur s2 <> c) /\
    forall n2 all p u s2 r2, k = 1%nat \/ all = true -> exec n2 (OResume c all p u) s1 = (s2, r2) ->
      r2 = Ok tt /\ forall s3, idle_of c s2 s3 ->
        c_status (comps s3 c) = Scheduled /\ pending c (now s1 + (T - now s)) s3 /\
        forall m s4 r4, exec m OStep s3 = (s4, r4) -> cur s4 = c -> now s4 == now s1 + (T - now s).
Proof.
  intros s n c T s0 r H N S P E. pose proof (reach_t_PI _ H) as PP. assert (EI0 : EI s) by apply PP.
  destruct (pending_evs c T s EI0 P) as (e & V & TE & SC & ON).
  pose proof (wp_exec _ _ _ _ _ _ _ E (interrupt_post c s EI0 ON S)) as W. destruct r as [[]|x]; [|destruct W]. split; auto.
  assert (Q : asleep c (Fin (e_t e - now s)) 1 s0).
  { destruct W as (W1 & W2 & W3 & W4 & W5 & W6 & W7 & W8). split; [apply (started_exec _ _ _ _ _ (started_t _ H) E)|].
    split; [apply (out_same c s); auto; apply nowhere_out; auto|]. rewrite SC in W5. cbn in W5. auto. }
  assert (GE : now s <= e_t e).
  { apply (ei_now _ EI0). assert (J : In e (evs c s)) by (rewrite V; left; auto). unfold evs in J. apply filter_In in J. tauto. }
  intros k s1 I. destruct (interrupted_asleep _ _ _ Q _ _ I) as (A1 & A2 & A3 & A4 & A5 & A6 & A7).
  split; [exact A4|]. split; [apply evs_none; auto|]. split.
  { intros NM m s2 r2 X C. destruct (keeps_away c s1 A1 A2 A3 s1 (io_refl _ _)) as (_ & _ & _ & B). destruct (B _ _ _ X C). contradiction. }
  intros n2 all p u s2 r2 L X.
  assert (L' : c_ilevel (comps s1 c) = 1%Z \/ all = true) by (destruct L as [->|L]; auto).
  assert (SQ : (0 <= seq s1)%Z) by (pose proof (started_Seqs _ A1) as SS; unfold Seqs in SS; apply incr_le in SS; auto).
  assert (NP : xltb (xadd (Fin (now s1)) (c_rem (comps s1 c))) (Fin (now s1)) = false).
  { rewrite A7. cbn. unfold Qltb. apply negb_false_iff, Qle_bool_iff. lra. }
  pose proof (wp_exec _ _ _ _ _ _ _ X (resume_post0 c all p u s1 SQ A3 A5 A4 L')) as R. destruct r2 as [[]|x]; [|destruct R as (_ & R & _); congruence].
  split; auto. destruct R as (_ & B & NW & S2 & Y1 & Y2 & Y3). unfold eff in B. rewrite NP, A7 in B. cbn [xadd] in B.
  destruct (booked_evs _ _ _ _ _ _ B) as (q & _ & V2).
  intros s3 J. destruct (keeps_event c s2 _ (started_exec _ _ _ _ _ A1 X) (out_same _ _ _ A2 Y3 Y1 Y2) V2 s3 J) as (B1 & B2 & B3 & _ & B4). cbn in B4.
  split; [congruence|]. split.
  - destruct (evs_pending _ _ _ B1) as (f & F1 & F2 & F3 & F4). exists f. split; auto. split; auto. split; [|auto]. cbn in F3. lra.
  - intros m s4 r4 Y C. destruct (B4 _ _ _ Y C) as (-> & _). lra.
Qed.
Theorem C08_not_interruptible : forall s n c, c_status (comps s c) <> Scheduled -> c_status (comps s c) <> Interrupted ->
  exec n (OInterrupt c) s = (s, Er ValueErr) .
Proof. intros s n c A B. cbn [exec]. unfold interrupt, bind, stat, get. destruct (c_status (comps s c)); try tauto; reflexivity. Qed.
(** component 2, scheduled for 5, is interrupted twice at time 2, resumed once; component 1 holds until 9 and resumes it: it is on again at 9 + 3 *)
Example C08_case : let s := st env0 (firstn 4 two_holds) in let s0 := run1 (OInterrupt 2) s in
  let s1 := run1 (OHold 1 (SDur (Fin 7)) (Fin 0) false 0 None) (run1 (OResume 2 false (Fin 0) false) (run1 (OInterrupt 2) s0)) in
  let s2 := run1 OStep s1 in
  reach_t s /\ nowhere 2 s /\ c_status (comps s 2) = Scheduled /\ pending 2 5 s /\ now s == 2 /\ interrupted 2 s0 1 s2 /\ cur s2 = 1%nat /\ now s2 == 9 /\
  exec 19 (OResume 2 false (Fin 0) false) s2 = (run1 (OResume 2 false (Fin 0) false) s2, Ok tt).
Proof.
  intros s s0 s1 s2. split; [apply st_reach_t; vm_compute; reflexivity|].
  split. { repeat split; intros; vm_compute; tauto. }
  split; [vm_compute; reflexivity|].
  split; [apply (evs_pending 2 _ (mkEv 5 (Fin 0) 2 2)); vm_compute; reflexivity|]. split; [vm_compute; reflexivity|].
  split; [|split; [vm_compute; reflexivity | split; [vm_compute; reflexivity | apply run1_ok; vm_compute; reflexivity]]].
  assert (C : cur s2 <> 2%nat) by (vm_compute; discriminate).
  apply in_idle with (s := run1 (OResume 2 false (Fin 0) false) (run1 (OInterrupt 2) s0)).
  - eapply in_less; [eapply in_more; [apply in_first|] |]; apply run1_ok; vm_compute; reflexivity.
  - unfold s2, s1 in *. revert C. generalize (run1 (OResume 2 false (Fin 0) false) (run1 (OInterrupt 2) s0)). clear. intros s9 C.
    eapply io_step with (o := OStep); [eapply io_step with (o := OHold 1 (SDur (Fin 7)) (Fin 0) false 0 None); [constructor | apply run1_any | | discriminate] | apply run1_any | | auto]; cbn; lia || tauto.
Qed.

(** ** C09 *)
(** executions in which no call raises, and no component with skip_standby is left at a moment when there are standby components both waiting for
    the next event and not yet resumed after the last one *)
Inductive smooth : env -> Prop :=
| sm_init : forall t0 R sv kc hp y d, smooth (init t0 R sv kc hp y d)
| sm_call : forall s n o s', smooth s -> wf s o -> exec n o s = (s', Ok tt) ->
    (o = OStep -> c_skip (comps s (cur s)) = true -> stby s = [] \/ pend s = []) -> smooth s'.
Lemma smooth_reach : forall s, smooth s -> reach_t s.
Proof.
  induction 1 as [t0 R sv kc hp y d|s n o s' H IH W E C].
  - exists t0, R, sv, kc, hp, y, d. constructor.
  - destruct IH as (t0 & R & sv & kc & hp & y & d & IH). exists t0, R, sv, kc, hp, y, d. eapply rt_step; eauto. discriminate.
Qed.
Theorem C09_on_exactly_one_list : forall s c, smooth s -> c_status (comps s c) = Standby ->
  count_occ Nat.eq_dec (stby s ++ pend s) c = 1%nat.
Proof.
  intros s c H S.
  assert (K : forall d, c_status (comps s d) = Standby -> LS s d).
  { clear c S. induction H as [t0 R sv kc hp y d|s n o s' H IH W E C]; intros c S.
    - unfold init in S. cbn [comps] in S. unfold upd in S. destruct (Nat.eqb c main) eqn:M; cbn in S; discriminate.
    - pose proof (reach_t_PI _ (smooth_reach _ H)) as [Q B].
      assert (Q' : QI s') by (apply (QI_exec n o s s' (Ok tt)); auto; discriminate).
      pose proof (wp_exec _ _ _ _ _ _ _ E (SB_exec n o s Q B W)) as V. cbv beta iota in V. apply (V Q'); auto.
      intros O (A1 & A2 & A3). destruct (C O A1); contradiction. }
  pose proof (reach_t_PI _ (smooth_reach _ H)) as [_ B]. pose proof (sb_nd _ B) as ND. specialize (K c S). unfold LS in K.
  apply (proj1 (NoDup_count_occ' Nat.eq_dec _) ND c K).
Qed.
Lemma SB_touch : forall c s s', SB s -> ~ LS s c -> stby s' = stby s -> pend s' = pend s -> qs s' = qs s -> (forall d, d <> c -> comps s' d = comps s d) -> SB s'.
Proof.
  intros c s s' H N E1 E2 E3 E4. assert (L : forall d, LS s' d <-> LS s d) by (unfold LS; rewrite E1, E2; tauto). constructor.
  - rewrite E1, E2. apply H.
  - intros d K. apply L in K. rewrite E4 by (intros ->; contradiction). apply (sb_st _ H); auto.
  - intros q d R M K. apply L in K. unfold mem in M. rewrite E3 in M. apply (sb_q _ H q d); auto.
  - rewrite L. apply H.
Qed.
Lemma comps_disp : forall c x d, d <> c -> comps (disp c x) d = comps x d.
Proof. intros. unfold disp. rewrite !comps_diff; auto. Qed.
Lemma step_turn : forall n s c t, SB s -> pend s = c :: t -> c_skip (comps s (cur s)) = false ->
  wp (step n) (fun _ s' => cur s' = c /\ now s' = now s /\ stby s' = stby s /\ pend s' = t) (fun _ _ => True) s.
Proof.
  intros n s c t H PD SK.
  assert (L : LS s c) by (unfold LS; rewrite PD, in_app_iff; right; left; auto).
  assert (ST : c_status (comps s c) = Standby) by apply (sb_st _ H c L).
  apply w_step.
  - intros c' t' _ PD' _. rewrite PD in PD'. injection PD' as <- <-. split; [auto|]. intros NM.
    pose proof (sb_nd _ H) as ND. rewrite PD in ND. apply NoDup_remove in ND. destruct ND as (ND & NI).
    set (s1 := s_cur c _).
    assert (B0 : SB (s_pend t s)).
    { assert (LL : forall d, LS (s_pend t s) d -> LS s d) by (intros d; unfold LS; cbn [stby pend s_pend]; rewrite PD, !in_app_iff; cbn; tauto).
      constructor; [exact ND | | |].
      - intros d K. apply (sb_st _ H); auto.
      - intros q d R M K. apply (sb_q _ H q d); auto.
      - intros K. apply (sb_m _ H); auto. }
    assert (B1 : SB s1). { apply (SB_touch c (s_pend t s)); auto. intros d D. unfold s1. cbn [comps s_cur]. rewrite !comps_diff; auto. }
    eapply wp_conseq; [eapply wp_conj; [apply (frames_wp _ Rt _ s1 (t_continue n c)) | apply (frames_wp _ R3 _ s1 (s_continue n c))] | |]; cbv beta; auto.
    intros _ s' ((A1 & A2 & _) & B). destruct (B B1) as (_ & B2 & B3 & _). rewrite A1, A2, B2, B3. auto.
  - intros [D|[D|(c' & t' & D & D')]]; exfalso; [congruence | rewrite D in PD; discriminate |]. rewrite PD in D. injection D as <- <-. contradiction.
Qed.
Lemma step_shuffle : forall n s, EI s -> SB s -> pend s = [] ->
  wp (step n) (fun _ s' => stby s' = [] /\ pend s' = stby s) (fun _ _ => True) s.
Proof.
  intros n s EE H PD. apply w_step.
  - intros c t _ K. rewrite PD in K. discriminate.
  - intros _. assert (DR : dropped s = s) by (unfold dropped; rewrite PD; destruct (c_skip _); auto). rewrite DR.
    destruct (shuffle_lists s H) as (H1 & L1 & _).
    assert (SH : stby (shuffle s) = [] /\ pend (shuffle s) = stby s).
    { unfold shuffle. destruct (stby s) eqn:E; cbn; auto. }
    split.
    + intros e l' EP s1. pose proof (ev_pop_min _ _ _ EP) as (I & _). split; [intros _; exact SH|]. intros NM.
      assert (N : ~ LS (shuffle s) (e_c e)).
      { intros L. apply L1, (sb_st _ H) in L. destruct L as (_ & L). pose proof (proj2 (ei_onev _ EE (e_c e)) (in_map _ _ _ I)). congruence. }
      assert (B1 : SB s1).
      { apply (SB_touch (e_c e) (shuffle s)); auto. intros d D. unfold s1. rewrite comps_disp by auto. unfold taken. cbn [comps s_now]. rewrite comps_diff; auto. }
      eapply wp_conseq; [apply (frames_wp _ R3 _ s1) | |]; cbv beta; auto.
      * apply (fr_bind _ R3_po); [apply s_check_fail | intros; apply s_continue].
      * intros _ s' B. destruct (B B1) as (_ & B2 & B3 & _). rewrite B2, B3. exact SH.
    + intros _. unfold emptied. destruct (eoe (shuffle s)); exact SH.
Qed.
(** the standby components waiting for the next event are all due after it *)
Theorem C09_due_after_next_event : forall s m s', reach_t s -> pend s = [] -> exec m OStep s = (s', Ok tt) -> pend s' = stby s /\ stby s' = [].
Proof.
  intros s m s' H PD E. pose proof (reach_t_PI _ H) as [Q B]. assert (EE : EI s) by apply Q.
  pose proof (wp_exec _ _ _ _ _ _ _ E (step_shuffle m s EE B PD)) as (V1 & V2). auto.
Qed.
(** and the first that is due is made current by the next step, without the clock moving *)
Theorem C09_due_is_made_current : forall s m s' c t, reach_t s -> pend s = c :: t -> c_skip (comps s (cur s)) = false ->
  exec m OStep s = (s', Ok tt) -> cur s' = c /\ now s' = now s /\ pend s' = t /\ stby s' = stby s.
Proof.
  intros s m s' c t H PD SK E. pose proof (reach_t_PI _ H) as [Q B].
  pose proof (wp_exec _ _ _ _ _ _ _ E (step_turn m s c t B PD SK)) as (V1 & V2 & V3 & V4). auto.
Qed.
(** components 1 and 2 go on standby; with component 3 in between *)
Definition three : list op :=
  [ OCreate 1 None (Fin 0) (Fin 0) false false None; OCreate 2 None (Fin 0) (Fin 0) false false None; OCreate 3 None (Fin 0) (Fin 0) false true None;
    ORun (SDur (Fin 100)) PInf false None; OStep; OStandby 1; OStep; OStandby 2 ].
Fixpoint smoothb (l : list op) (s : env) : bool :=
  match l with
  | [] => true
  | o :: t => match exec 19 o s with
              | (s', Ok _) => wfb s o && (negb (c_skip (comps s (cur s))) || negb (nonnil (stby s)) || negb (nonnil (pend s))) && smoothb t s'
              | _ => false end
  end.
Lemma smoothb_smooth : forall l s, smooth s -> smoothb l s = true -> exists s', script 19 l s = Some s' /\ smooth s'.
Proof.
  induction l as [|o l IH]; cbn [smoothb script]; intros s H K; [eauto|].
  destruct (exec 19 o s) as [s' [[]|e]] eqn:E; [|discriminate]. apply andb_true_iff in K. destruct K as (K & K3). apply andb_true_iff in K. destruct K as (K1 & K2).
  rewrite K1. apply IH; auto. eapply sm_call; eauto using wfb_wf. intros _ SK. rewrite SK in K2. cbn [negb orb] in K2. apply orb_true_iff in K2.
  destruct K2 as [K2|K2]; apply negb_true_iff, nonnil_false in K2; auto.
Qed.
Example C09_case : let s := st env0 three in smooth s /\ c_status (comps s 1) = Standby /\ c_status (comps s 2) = Standby /\ pend s = [1%nat] /\ stby s = [2%nat] /\
  c_skip (comps s (cur s)) = false /\ snd (exec 19 OStep s) = Ok tt.
Proof.
  intros s. split; [|vm_compute; repeat split].
  destruct (smoothb_smooth three env0) as (s' & A & B); [apply sm_init | vm_compute; reflexivity|]. unfold s, st. rewrite A. exact B.
Qed.
(** Without that restriction components do get lost: the skip_standby component 3 goes on standby itself while component 1 is due. *)
Definition lost : list op :=
  [ OCreate 1 None (Fin 0) (Fin 0) false false None; OCreate 3 None (Fin 0) (Fin 0) false true None;
    ORun (SDur (Fin 100)) PInf false None; OStep; OStandby 1; OStep; OStandby 3; OStep ].
Theorem C09_skip_standby_refuted : exists s c, reach_t s /\ c_status (comps s c) = Standby /\ ~ In c (stby s ++ pend s).
Proof.
  exists (st env0 lost), 1%nat. split; [apply st_reach_t; vm_compute; reflexivity|]. split; [vm_compute; reflexivity|]. vm_compute. intuition discriminate.
Qed.

(** ** C10 *)
Definition Rrun (s s' : env) : Prop := running s = true -> running s' = true.
Lemma Rrun_po : preorder Rrun. Proof. constructor; unfold Rrun; auto. Qed.
Lemma run_remove : forall c, frames Rrun (remove c).
Proof. intros. unfold remove. fgo Rrun_po; intros A; exact A. Qed.
Lemma run_resched : forall c t p u cap, frames Rrun (reschedule c t p u cap).
Proof. intros. unfold reschedule, push. fgo Rrun_po; intros A; exact A. Qed.
Lemma run_exec : forall n o, o <> OStep -> frames Rrun (exec n o).
Proof. intros. apply (g_exec Rrun Rrun_po); auto using run_remove, run_resched; intros; intros A; exact A || reflexivity. Qed.
Lemma run_check_fail : forall c, frames Rrun (check_fail c).
Proof. intros. apply (g_check_fail Rrun Rrun_po); intros; intros A; exact A. Qed.
Lemma run_continue : forall n c, frames Rrun (continue n c).
Proof. intros. apply (g_continue Rrun Rrun_po); auto using run_remove, run_resched; intros; intros A; exact A. Qed.
(** a step ends the run exactly when it makes main current, and then it only takes an event off the list *)
Lemma run_step : forall n s, wp (step n)
  (fun _ s' => (cur s' = main -> (~ LS s main -> running s' = false /\ incl (evl s') (evl s) /\ (evl s = [] -> now s' = now s))) /\ (cur s' <> main -> running s = true -> running s' = true))
  (fun _ s' => (cur s' = main -> LS s main) /\ (cur s' <> main -> running s = true -> running s' = true)) s.
Proof.
  intros n s.
  assert (RS : running (shuffle (dropped s)) = running s).
  { unfold shuffle, dropped. destruct (c_skip _), (pend s); cbn; destruct (nonnil _); auto. }
  assert (K : forall (m : M unit) s1 c, frames Rt m -> frames Rrun m -> cur s1 = c -> c <> main -> (running s = true -> running s1 = true) ->
    wp m (fun _ s' => (cur s' = main -> (~ LS s main -> running s' = false /\ incl (evl s') (evl s) /\ (evl s = [] -> now s' = now s))) /\ (cur s' <> main -> running s = true -> running s' = true))
     (fun _ s' => (cur s' = main -> LS s main) /\ (cur s' <> main -> running s = true -> running s' = true)) s1).
  { intros m s1 c F1 F2 C N R. eapply wp_conseq; [eapply wp_and; [apply (frames_wp _ Rt _ s1 F1) | apply (frames_wp _ Rrun _ s1 F2)] | |]; cbv beta;
      intros ? s' ((_ & A & _) & B); unfold Rrun in B; (split; [intros X; exfalso; congruence | auto]). }
  apply w_step.
  - intros c t SK PD ST. split.
    + intros ->. cbn [cur s_cur]. split; [|congruence]. intros _. unfold LS. rewrite PD, in_app_iff. right. left. auto.
    + intros NM. apply K with (c := c); auto using t_continue, run_continue.
  - intros _. split.
    + intros e l' EP s1. pose proof (ev_pop_min _ _ _ EP) as (I & J & _). split.
      * intros EM. cbn [cur s_running]. unfold s1. cbn [cur disp m_comp s_comps s_cur]. split; [|congruence]. intros _ _.
        split; [reflexivity|]. split; [exact J|]. intros V. rewrite V in I. destruct I.
      * intros NM. apply K with (c := e_c e); auto; [apply (fr_bind _ Rt_po); [apply t_check_fail | intros; apply t_continue]
          | apply (fr_bind _ Rrun_po); [apply run_check_fail | intros; apply run_continue] |]. unfold s1. cbn. rewrite RS. auto.
    + intros V. split; [|intros X; exfalso; apply X; reflexivity]. intros _ _. split; [reflexivity|].
      assert (E1 : evl (disp main (emptied (shuffle (dropped s)))) = evl s) by (unfold emptied; destruct (eoe _); apply evl_sd).
      assert (E2 : now (disp main (emptied (shuffle (dropped s)))) = now s) by (unfold emptied; destruct (eoe _); apply now_sd).
      cbn [evl now s_running]. rewrite E1, E2. split; [apply incl_refl | auto].
Qed.
Lemma run_idle : forall s s', idle_of main s s' -> running s = true -> running s' = true.
Proof.
  induction 1 as [|s s1 n o s2 r H IH E D C]; auto. intros R. destruct (op_step_dec o) as [->|N].
  - pose proof (wp_exec _ _ _ _ _ _ _ E (run_step n s1)) as V. destruct r; apply V; auto.
  - pose proof (run_exec n o N s1) as F. rewrite E in F. apply F; auto.
Qed.
(** the time at which run(till=...) or run(duration=...) has to end *)
Definition run_target (sp : spec) (s : env) (T : Q) : Prop :=
  match sp with SDur (Fin d) => T = now s + d | STill (Fin t) => T = t + off s | _ => False end.
Lemma main_out : forall s, PI s -> c_status (comps s main) <> Standby -> out main s.
Proof. intros s P N. apply free_out; auto. destruct P as [Q _]. split; [apply (ki_m _ (qi_k _ Q)) | exact (qi_m _ Q)]. Qed.
Theorem C10_run_till : forall s n sp u cap T s0 r, reach_t s -> wf s (ORun sp PInf u cap) -> run_target sp s T -> now s <= T ->
  exec n (ORun sp PInf u cap) s = (s0, r) ->
  r = Ok tt /\ running s0 = true /\ forall s', idle_of main s0 s' -> running s' = true /\ now s' <= T /\
    forall m s'' r', exec m OStep s' = (s'', r') ->
      (cur s'' <> main -> running s'' = true) /\
      (cur s'' = main -> running s'' = false /\ now s'' == T /\
         forall x, In x (evl s'') -> T < e_t x \/ (e_t x == T /\ e_prio x = PInf)).
Proof.
  intros s n sp u cap T s0 r H W RT LE E. pose proof (reach_t_PI _ H) as P. destruct W as (NE & CM & SM).
  assert (RT' : run_time sp s = Some (Fin T)) by (destruct sp as [|[d|]|[t|]|]; cbn in *; try contradiction; subst T; auto).
  assert (NP : xltb (Fin T) (Fin (now s)) = false). { cbn. unfold Qltb. apply negb_false_iff, Qle_bool_iff. lra. }
  pose proof (wp_exec _ _ _ _ _ _ _ E (run_post sp PInf u cap s _ P SM RT')) as V.
  destruct r as [[]|e]; [|destruct V as (_ & V & _); congruence]. split; auto.
  destruct V as (_ & B & NW & S0 & _ & RN). split; auto. unfold eff in B. rewrite NP in B.
  assert (P0 : PI s0). { apply (PI_exec n (ORun sp PInf u cap) s s0 (Ok tt)); auto; [split; auto | discriminate]. }
  destruct (booked_evs _ _ _ _ _ _ B) as (k & _ & V0). intros s' I.
  assert (O0 : out main s0) by (apply main_out; auto; rewrite S0; discriminate).
  destruct (keeps_event main s0 _ (started_exec _ _ _ _ _ (started_t _ H) E) O0 V0 s' I) as (A1 & A2 & A3 & A4 & A5). cbn in A3, A5.
  pose proof (run_idle _ _ I RN) as RN'. split; [auto|]. split; [auto|]. intros m s'' r' X.
  pose proof (wp_exec _ _ _ _ _ _ _ X (run_step m s')) as Y.
  split; [intros C; destruct r'; apply Y; auto|]. intros C. destruct (A5 _ _ _ X C) as (-> & MIN).
  destruct r' as [[]|e']; [|exfalso; apply (proj2 A4); apply Y; auto]. destruct Y as (Y & _). destruct (Y C (proj2 A4)) as (Y1 & Y2 & _).
  split; [auto|]. split; [lra|]. intros x IX. specialize (MIN x (Y2 x IX)). unfold ev_le in MIN. cbn in MIN.
  destruct MIN as [MIN|(M1 & M2)]; [auto|]. right. split; [lra|]. destruct (e_prio x); auto. cbn in M2. tauto.
Qed.
(** run() without arguments *)
Theorem C10_run_to_the_end : forall s n u cap s0 r, reach_t s -> wf s (ORun SNone PInf u cap) ->
  exec n (ORun SNone PInf u cap) s = (s0, r) ->
  r = Ok tt /\ running s0 = true /\ forall s', idle_of main s0 s' -> running s' = true /\
    forall m s'' r', exec m OStep s' = (s'', r') ->
      (cur s'' <> main -> running s'' = true) /\
      (cur s'' = main -> running s'' = false /\ now s'' = now s' /\ evl s' = [] /\ evl s'' = []).
Proof.
  intros s n u cap s0 r H W E. pose proof (reach_t_PI _ H) as P. destruct W as (NE & CM & SM).
  pose proof (wp_exec _ _ _ _ _ _ _ E (run_post SNone PInf u cap s _ P SM eq_refl)) as V.
  destruct r as [[]|e]; [|destruct V as (_ & V & _); discriminate]. split; auto.
  destruct V as (_ & B & NW & S0 & _ & RN). split; auto. unfold eff in B. cbn in B. destruct B as (_ & B).
  assert (P0 : PI s0). { apply (PI_exec n (ORun SNone PInf u cap) s s0 (Ok tt)); auto; [split; auto | discriminate]. }
  intros s' I. assert (O0 : out main s0) by (apply main_out; auto; rewrite S0; discriminate).
  destruct (keeps_away main s0 (started_exec _ _ _ _ _ (started_t _ H) E) O0 (others_none _ _ _ B) s' I) as (A1 & A2 & A3 & A4).
  pose proof (run_idle _ _ I RN) as RN'. split; [auto|]. intros m s'' r' X.
  pose proof (wp_exec _ _ _ _ _ _ _ X (run_step m s')) as Y.
  split; [intros C; destruct r'; apply Y; auto|]. intros C. destruct (A4 _ _ _ X C) as (_ & EV).
  destruct r' as [[]|e']; [|exfalso; apply (proj2 A3); apply Y; auto]. destruct Y as (Y & _). destruct (Y C (proj2 A3)) as (Y1 & Y2 & Y3).
  split; [auto|]. split; [auto|]. split; [auto|]. rewrite EV in Y2. apply incl_l_nil in Y2. auto.
Qed.
(** run(duration=5) with events at 2 and 5: both are processed before main is on again at 5 *)
Example C10_case : let s := st env0 (firstn 2 two_holds) in let o := ORun (SDur (Fin 5)) PInf false None in let s0 := run1 o s in
  let s' := run1 OStep (run1 (OPassivate 1) (run1 OStep s0)) in let s1 := run1 (OPassivate 2) s' in
  reach_t s /\ wf s o /\ run_target (SDur (Fin 5)) s (now s + 5) /\ exec 19 o s = (s0, Ok tt) /\ idle_of main s0 s1 /\ cur s' = 2%nat /\ now s' == 5 /\ cur (run1 OStep s1) = main.
Proof.
  intros s o s0 s' s1. split; [apply st_reach_t; vm_compute; reflexivity|]. split; [apply wfb_wf; vm_compute; reflexivity|]. split; [reflexivity|].
  split; [apply run1_ok; vm_compute; reflexivity|]. split; [|vm_compute; repeat split].
  assert (C1 : cur (run1 OStep s0) <> main) by (vm_compute; discriminate). assert (C2 : cur s' <> main) by (vm_compute; discriminate).
  unfold s1, s' in *. revert C1 C2. generalize s0. clear. intros x C1 C2.
  eapply io_step with (o := OPassivate 2); [|apply run1_any | cbn; discriminate | discriminate].
  eapply io_step with (o := OStep); [|apply run1_any | cbn; tauto | auto].
  eapply io_step with (o := OPassivate 1); [|apply run1_any | cbn; discriminate | discriminate].
  eapply io_step with (o := OStep); [constructor|apply run1_any | cbn; tauto | auto].
Qed.
Example C10_case_no_args : let s := st env0 (firstn 2 two_holds) in let o := ORun SNone PInf false None in let s0 := run1 o s in
  reach_t s /\ wf s o /\ exec 19 o s = (s0, Ok tt) /\ cur (run1 OStep s0) = 1%nat.
Proof.
  intros s o s0. split; [apply st_reach_t; vm_compute; reflexivity|]. split; [apply wfb_wf; vm_compute; reflexivity|].
  split; [apply run1_ok; vm_compute; reflexivity | vm_compute; reflexivity].
Qed.

(** ** C12 *)
Theorem C12_shift : forall s n x s' r, exec n (OResetNow x) s = (s', r) ->
  r = Ok tt /\ user_now s' == x /\
  (forall c t, user_sched s c = Fin t -> exists t', user_sched s' c = Fin t' /\ t' - t == user_now s' - user_now s) /\
  (forall c, user_sched s c = PInf -> user_sched s' c = PInf) /\
  now s' = now s /\ evl s' = evl s /\ comps s' = comps s /\ stby s' = stby s /\ pend s' = pend s /\ qs s' = qs s /\ rsc s' = rsc s.
Proof.
  intros s n x s' r E. cbn [exec] in E. unfold reset_now, put in E. injection E as <- <-. unfold user_now, user_sched. cbn.
  split; auto. split; [lra|]. split.
  - intros c t. destruct (c_sched (comps s c)) as [q|]; cbn; [|discriminate]. intros T. injection T as <-. eexists. split; [reflexivity | lra].
  - split; [intros c; destruct (c_sched (comps s c)); cbn; congruence|]. repeat split.
Qed.
(** a sequence of calls, whatever their outcomes *)
Fixpoint play (n : nat) (l : list op) (s : env) : env * list (result unit) :=
  match l with
  | [] => (s, [])
  | o :: t => let (s1, r) := exec n o s in let (s2, rs) := play n t s1 in (s2, r :: rs)
  end.
(** after reset_now everything goes on as it would have gone without: as long as no call is given an absolute time, all outcomes and all states
    are the same, up to the offset *)
Theorem C12_nothing_else_changes : forall n l s x, Forall (fun o => ~ absolute o) l ->
  let y := now s - x in
  fst (play n (OResetNow x :: l) s) = s_off y (fst (play n l s)) /\ tl (snd (play n (OResetNow x :: l) s)) = snd (play n l s).
Proof.
  intros n l s x F y. cbn [play exec]. unfold reset_now, put. fold y. clearbody y. revert s. induction F as [|o t N F IH]; intros s; [cbn; auto|].
  cbn [play] in *. rewrite (o_exec n o N s y). destruct (exec n o s) as [s1 r]. cbn [fst snd]. specialize (IH s1).
  destruct (play n t (s_off y s1)) as [s2 rs]. destruct (play n t s1) as [s3 rs']. cbn in *. destruct IH as (-> & ->). auto.
Qed.
(** an absolute time is a time on the current scale *)
Definition at_given (o : op) : option (nat * Q) :=
  match o with
  | OCreate c (Some (Fin a)) (Fin d) _ _ _ _ | OActivate c (Some (Fin a)) (Fin d) _ _ _ _ _ _ => Some (c, a + d)
  | OHold c (STill (Fin t)) _ _ 0%Z _ => Some (c, t)
  | ORun (STill (Fin t)) _ _ _ => Some (main, t)
  | _ => None
  end.
Theorem C12_absolute_on_new_scale : forall s n o s' c t, reach_t s -> wf s o -> at_given o = Some (c, t) -> user_now s <= t ->
  exec n o s = (s', Ok tt) -> exists t', user_sched s' c = Fin t' /\ t' == t.
Proof.
  intros s n o s' c t H W A LE E.
  assert (K : exists cap q, asked s o = Some (c, Fin q, cap) /\ q == t + off s /\ forall x, o <> OResetNow x).
  { destruct o; cbn in A; try discriminate.
    1, 2: destruct at_ as [[a|]|]; try discriminate; destruct delay as [d|]; try discriminate; injection A as <- <-;
      exists cap; eexists; split; [reflexivity|]; split; [cbn; lra | discriminate].
    - destruct sp as [|d|[q|]|]; try discriminate. destruct inter; try discriminate. injection A as <- <-.
      exists cap; eexists; split; [reflexivity|]; split; [cbn; lra | discriminate].
    - destruct sp as [|d|[q|]|]; try discriminate. injection A as <- <-. exists cap; eexists; split; [reflexivity|]; split; [cbn; lra | discriminate]. }
  destruct K as (cap & q & K & QT & NR). pose proof (C05_past_rejected_or_capped _ _ _ _ _ _ _ _ H W K E) as (_ & V).
  destruct V as (V & _). { intros P. unfold past in P. cbn in P. unfold user_now in LE. lra. }
  pose proof (off_exec n o NR s) as F. rewrite E in F. unfold Roffs in F. cbn in F. unfold user_sched. rewrite V, F. cbn. eexists; split; [reflexivity | lra].
Qed.
(** at time 2 the clock is set to 100 with component 2 scheduled for 5; component 1 then holds till 104, which is 6 on the old scale *)
Example C12_case : let s := st env0 (firstn 4 two_holds) in let s1 := st env0 (firstn 4 two_holds ++ [OResetNow 100]) in let o := OHold 1 (STill (Fin 104)) (Fin 0) false 0 None in
  user_sched s 2 = Fin 5 /\ user_sched s1 2 = Fin 103 /\ reach_t s1 /\ wf s1 o /\ user_now s1 <= 104 /\ exec 19 o s1 = (run1 o s1, Ok tt) /\ pending 1 6 (run1 o s1) /\
  Forall (fun o => ~ absolute o) [OHold 1 (SDur (Fin 1)) (Fin 0) false 0 None; OStep].
Proof.
  intros s s1 o. split; [vm_compute; reflexivity|]. split; [vm_compute; reflexivity|].
  split; [apply st_reach_t; vm_compute; reflexivity|].
  split; [apply wfb_wf; vm_compute; reflexivity|]. split; [vm_compute; discriminate|].
  split; [apply run1_ok; vm_compute; reflexivity|]. split; [apply (evs_pending 1 _ (mkEv 6 (Fin 0) 4 1)); vm_compute; reflexivity|].
  repeat constructor; cbn; tauto.
Qed.

(** ** C59 *)
Lemma activate_keeps : forall c a d p u kr kw cap s, kr || kw = true -> c_status (comps s c) <> Data -> c_status (comps s c) <> Standby ->
  wp (activate c a d p u false kr kw cap)
    (fun _ s' => qs s' = qs s /\ rsc s' = rsc s /\ sval s' = sval s /\ c_requests (comps s' c) = c_requests (comps s c) /\
       c_waits (comps s' c) = c_waits (comps s c) /\ c_status (comps s' c) = Scheduled /\ forall x, x <> c -> comps s' x = comps s x) (fun _ _ => True) s.
Proof.
  intros c a d p u kr kw cap s KR ND NS. unfold activate. apply wp_bind, wp_stat. cbn [orb].
  replace (steqb (c_status (comps s c)) Data) with false by (symmetry; apply steqb_false_iff; auto). cbn [negb andb when orb].
  apply wp_bind, wp_get. apply wp_bind, wp_ret. apply wp_bind, wp_ret. apply wp_bind. rewrite KR. cbn [negb when].
  set (G := fun s' : env => qs s' = qs s /\ rsc s' = rsc s /\ sval s' = sval s /\ c_requests (comps s' c) = c_requests (comps s c) /\
       c_waits (comps s' c) = c_waits (comps s c) /\ forall x, x <> c -> comps s' x = comps s x).
  assert (GC : forall f s1, (forall y, c_requests (f y) = c_requests y /\ c_waits (f y) = c_waits y) -> G s1 -> G (m_comp c f s1)).
  { intros f s1 F (G1 & G2 & G3 & G4 & G5 & G6). unfold G. rewrite comps_same. destruct (F (comps s1 c)) as (F1 & F2).
    split; [exact G1|]. split; [exact G2|]. split; [exact G3|]. split; [congruence|]. split; [congruence|]. intros x X. rewrite comps_diff; auto. }
  assert (G0 : G s) by (unfold G; intuition).
  assert (T : forall s1, G s1 -> wp (t <- get (fun s => match a with None => xadd (Fin (now s)) d | Some a => xadd (xaddq a (off s)) d end) ;;
      setc c (w_status Scheduled) ;;; reschedule c t p u cap) (fun _ s' => G s' /\ c_status (comps s' c) = Scheduled) (fun _ _ => True) s1).
  { intros s1 G1. apply wp_bind, wp_get, wp_bind, wp_setc. set (t := match a with None => _ | Some a => _ end). clearbody t.
    assert (G2 : G (m_comp c (w_status Scheduled) s1)) by (apply GC; auto).
    assert (S2 : c_status (comps (m_comp c (w_status Scheduled) s1) c) = Scheduled) by (rewrite comps_same; auto).
    revert G2 S2. generalize (m_comp c (w_status Scheduled) s1). clear - GC. intros s2 G2 S2.
    unfold reschedule. apply wp_bind, wp_get, wp_bind.
    assert (K : forall t' s3, G s3 -> c_status (comps s3 c) = Scheduled -> wp (setc c (w_sched t') ;;; push c t' p u)
      (fun _ s' => G s' /\ c_status (comps s' c) = Scheduled) (fun _ _ => True) s3).
    { intros t' s3 G3 S3. apply wp_bind, wp_setc. assert (G4 : G (m_comp c (w_sched t') s3)) by (apply GC; auto).
      assert (S4 : c_status (comps (m_comp c (w_sched t') s3) c) = Scheduled) by (rewrite comps_same; auto).
      unfold push. destruct t' as [q|]; [|apply wp_ret; auto]. apply wp_bind, wp_put, wp_bind, wp_get, wp_bind, wp_setc, wp_put.
      split; [apply (GC (w_onev true) (s_seq (seq s3 + 1)%Z (m_comp c (w_sched (Fin q)) s3))); auto|]. cbn [comps s_evl]. rewrite comps_same. exact S4. }
    apply wp_if; intros B; [apply wp_bind, wp_get, wp_if; intros B2; [apply wp_get; apply K; auto | apply wp_raise; auto] | apply wp_ret; apply K; auto]. }
  eapply wp_conseq with (X := fun _ _ => True) (Q := fun _ s' => G s').
  - apply wp_when; intros _; [|auto]. apply wp_bind. unfold remove. apply wp_bind, wp_get, wp_if; intros B.
    + apply wp_bind, wp_get. destruct (ev_del c (evl s)); [|apply wp_raise; auto]. apply wp_bind, wp_put, wp_setc, wp_ret.
      apply (GC (w_onev false) (s_evl l s)); auto.
    + apply wp_bind, wp_stat. replace (steqb (c_status (comps s c)) Standby) with false by (symmetry; apply steqb_false_iff; auto). apply wp_ret, wp_ret. auto.
  - intros [] s1 G1. eapply wp_conseq; [apply T; auto | |]; cbv beta; auto. unfold G. tauto.
  - auto.
Qed.
(** the request is kept: still registered, with the same quantities, and nothing has been taken from or given to any resource *)
Theorem C59_request_kept_partial : forall s n c a d p u kw cap s', c_status (comps s c) = Requesting ->
  exec n (OActivate c a d p u false true kw cap) s = (s', Ok tt) ->
  c_requests (comps s' c) = c_requests (comps s c) /\ (forall r, qs s' (QReq r) = qs s (QReq r)) /\ rsc s' = rsc s.
Proof.
  intros s n c a d p u kw cap s' S E.
  pose proof (wp_exec _ _ _ _ _ _ _ E (activate_keeps c a d p u true kw cap s eq_refl ltac:(congruence) ltac:(congruence))) as (A & B & _ & C & _).
  rewrite A. auto.
Qed.
Theorem C59_wait_kept_partial : forall s n c a d p u kr cap s', c_status (comps s c) = Waiting ->
  exec n (OActivate c a d p u false kr true cap) s = (s', Ok tt) ->
  c_waits (comps s' c) = c_waits (comps s c) /\ (forall r, qs s' (QWait r) = qs s (QWait r)) /\ sval s' = sval s.
Proof.
  intros s n c a d p u kr cap s' S E.
  pose proof (wp_exec _ _ _ _ _ _ _ E (activate_keeps c a d p u kr true cap s (orb_true_r _) ltac:(congruence) ltac:(congruence))) as (A & _ & B & _ & C & _).
  rewrite A. auto.
Qed.
(** missing: the documented "and the status remains requesting" does not hold, the status is always scheduled *)
Definition requesting : list op := firstn 4 two_holds ++ [ORequest 1 [(0%nat, 4, Fin 0)] false SNone (Fin 0) false None; OStep].
Theorem C59_status_remains_refuted : exists s c o s', reach_t s /\ wf s o /\ o = OActivate c None (Fin 1) (Fin 0) false false true false None /\
  c_status (comps s c) = Requesting /\ exec 19 o s = (s', Ok tt) /\ c_status (comps s' c) = Scheduled.
Proof.
  set (o := OActivate 1 None (Fin 1) (Fin 0) false false true false None).
  exists (st env0 requesting), 1%nat, o, (run1 o (st env0 requesting)). split; [apply st_reach_t; vm_compute; reflexivity|].
  split; [apply wfb_wf; vm_compute; reflexivity|]. split; [reflexivity|]. split; [vm_compute; reflexivity|]. split; [apply run1_ok; vm_compute; reflexivity | vm_compute; reflexivity].
Qed.
Definition waiting : list op := firstn 4 two_holds ++ [OWait 1 [(0%nat, fun v => Z.eqb v 1, Fin 0)] false SNone (Fin 0) false None; OStep].
Example C59_case : let s := st env0 requesting in let o := OActivate 1 None (Fin 1) (Fin 0) false false true false None in
  c_status (comps s 1) = Requesting /\ c_requests (comps s 1) = [(0%nat, 4)] /\ exec 19 o s = (run1 o s, Ok tt) /\
  let w := st env0 waiting in let o := OActivate 1 None (Fin 1) (Fin 0) false false false true None in
  c_status (comps w 1) = Waiting /\ map fst (qs w (QWait 0)) = [1%nat] /\ exec 19 o w = (run1 o w, Ok tt).
Proof.
  intros s o. split; [vm_compute; reflexivity|]. split; [vm_compute; reflexivity|]. split; [apply run1_ok; vm_compute; reflexivity|].
  intros w q. split; [vm_compute; reflexivity|]. split; [vm_compute; reflexivity | apply run1_ok; vm_compute; reflexivity].
Qed.

Print Assumptions C04_hold_exact.
Print Assumptions C05_past_rejected_or_capped.
Print Assumptions C05_time_limits.
Print Assumptions C06_hold_refuted.
Print Assumptions C06_rejected_hold_partial.
Print Assumptions C07_not_resumed.
Print Assumptions C08_interrupt_resume.
Print Assumptions C09_on_exactly_one_list.
Print Assumptions C09_due_after_next_event.
Print Assumptions C09_due_is_made_current.
Print Assumptions C09_skip_standby_refuted.
Print Assumptions C10_run_till.
Print Assumptions C10_run_to_the_end.
Print Assumptions C12_shift.
Print Assumptions C12_nothing_else_changes.
Print Assumptions C12_absolute_on_new_scale.
Print Assumptions C59_request_kept_partial.
Print Assumptions C59_status_remains_refuted.
