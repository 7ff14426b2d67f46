(** Properties C01, C02, C03, C11: clock, dispatch order, event list. *)
From Coq Require Import QArith Lqa List Bool Arith ZArith Lia.
From Verif Require Import Base Kernel Wp KernelE KernelL KernelX KernelT.
Import ListNotations.
Open Scope Q_scope.

(** [s] can be reached from a freshly made environment by any finite sequence of API calls and
    scheduler steps, with any arguments, whether or not they raise. *)
Definition started (s : env) : Prop :=
  exists t0 R sv kc hp y d, calls (init t0 R sv kc hp y d) s.

Lemma started_Fut : forall s, started s -> Fut s.
Proof. intros s (t0 & R & sv & kc & hp & y & d & C). eapply f_calls; eauto. apply Fut_init. Qed.
Lemma started_Seqs : forall s, started s -> Seqs s.
Proof. intros s (t0 & R & sv & kc & hp & y & d & C). eapply (s_calls _ _ C). apply Seqs_init. Qed.
Lemma reach_started : forall s, reach s -> started s.
Proof. intros s (t0 & R & sv & kc & hp & y & d & C). exists t0, R, sv, kc, hp, y, d. eapply runs_calls; eauto. Qed.

(** an environment with nothing in it, used in the examples: everything has a process *)
Definition env0 : env :=
  init 0 (fun _ => res0 (Fin 3) 0 false false false false) (fun _ => 0%Z) (fun _ => PInf) (fun _ => true) false false.
Definition two_holds : list op :=
  [ OCreate 1 None (Fin 2) (Fin 0) false false None; OCreate 2 None (Fin 5) (Fin 0) false false None;
    ORun (SDur (Fin 100)) PInf false None; OStep; OHold 1 (SDur (Fin 3)) (Fin 0) true 0 None ].

(** ** C01 *)
Theorem C01_clock_never_backwards : forall s s', started s -> calls s s' ->
  now s <= now s' /\ forall e, In e (evl s') -> now s' <= e_t e.
Proof. intros s s' H C. apply (f_calls _ _ C). apply started_Fut; auto. Qed.
(** the time the user sees, as long as reset_now is not called *)
Theorem C01_user_clock : forall s n o s' r, started s -> exec n o s = (s', r) -> (forall x, o <> OResetNow x) ->
  now s - off s <= now s' - off s'.
Proof.
  intros s n o s' r H E N. pose proof (off_exec n o N s) as F. rewrite E in F. cbn in F. unfold Roffs in F. rewrite F.
  destruct (f_any _ _ _ _ _ (started_Fut _ H) E). lra.
Qed.
Example C01_case : exists s s', started s /\ calls s s' /\ now s == 0 /\ now s' == 2 /\ evl s' <> [].
Proof.
  exists env0. destruct (script 9 two_holds env0) as [s|] eqn:E; [|vm_compute in E; discriminate].
  exists s. split; [exists 0; do 6 eexists; constructor|]. split; [eapply runs_calls, script_runs; eauto|].
  vm_compute in E. injection E as <-. cbn. repeat split; try reflexivity. discriminate.
Qed.
(** a rejected call is covered as well: it does not move the clock *)
Example C01_case_raises : exists s s' e, calls env0 s /\ exec 9 (OHold 1 (SDur (Fin (-(3)))) (Fin 0) false 0 None) s = (s', Er e).
Proof.
  destruct (script 9 (firstn 4 two_holds) env0) as [s|] eqn:E; [|vm_compute in E; discriminate].
  exists s. do 2 eexists. split; [eapply runs_calls, script_runs; eauto|].
  vm_compute in E. injection E as <-. reflexivity.
Qed.

(** ** C02 *)
(** [evl] lists the pending events in the order of scheduling *)
Definition earlier (s : env) (a b : ev) : Prop := exists l1 l2 l3, evl s = l1 ++ a :: l2 ++ b :: l3.
Definition urgent (e : ev) : Prop := (e_seq e < 0)%Z.
Definition precedes (s : env) (a b : ev) : Prop :=
  e_t a < e_t b \/
  (e_t a == e_t b /\
   (xlt (e_prio a) (e_prio b) \/
    (xeq (e_prio a) (e_prio b) /\
     ((urgent a /\ ~ urgent b) \/
      (urgent a /\ urgent b /\ earlier s b a) \/
      (~ urgent a /\ ~ urgent b /\ earlier s a b))))).

Lemma earlier_seq : forall s a b, Seqs s -> In a (evl s) -> In b (evl s) ->
  (Z.abs (e_seq a) < Z.abs (e_seq b))%Z -> earlier s a b.
Proof.
  intros s a b H A B L. apply in_split in A. destruct A as (l1 & l2 & E).
  rewrite E in B. apply in_app_iff in B. destruct B as [B|[->|B]].
  - apply in_split in B. destruct B as (l3 & l4 & ->). exfalso. unfold Seqs in H. rewrite E in H.
    rewrite <- app_assoc in H. cbn in H. apply incr_order in H. lia.
  - lia.
  - apply in_split in B. destruct B as (l3 & l4 & ->). exists l1, l3, l4. auto.
Qed.
Lemma seq_distinct : forall s a b, Seqs s -> In a (evl s) -> In b (evl s) -> a <> b -> Z.abs (e_seq a) <> Z.abs (e_seq b).
Proof.
  intros s a b H A B N E. apply in_split in A. destruct A as (l1 & l2 & EQ).
  rewrite EQ in B. unfold Seqs in H. rewrite EQ in H.
  apply in_app_iff in B. destruct B as [B|[->|B]].
  - apply in_split in B. destruct B as (l3 & l4 & ->). rewrite <- app_assoc in H. cbn in H. apply incr_order in H. lia.
  - congruence.
  - apply in_split in B. destruct B as (l3 & l4 & ->). apply incr_order in H. lia.
Qed.
Lemma le_precedes : forall s e x, Seqs s -> In e (evl s) -> In x (evl s) -> x <> e -> ev_le e x -> precedes s e x.
Proof.
  intros s e x H A B N [L|(E & [L|(E' & L)])]; [left; auto | right; split; auto.. ].
  right. split; auto. unfold urgent.
  assert (D : Z.abs (e_seq e) <> Z.abs (e_seq x)) by (eapply seq_distinct; eauto).
  destruct (Z_lt_ge_dec (e_seq e) 0), (Z_lt_ge_dec (e_seq x) 0); try lia.
  - right; left. repeat split; auto. apply earlier_seq; auto. lia.
  - right; right. repeat split; try lia. apply earlier_seq; auto. lia.
Qed.

(** A scheduler step either gives the turn to a standby component, or ends the run because
    nothing is pending, or makes current the component of an event that precedes all others,
    removes that event and moves the clock to its time. *)
Theorem C02_dispatch_order : forall s n s' r, started s -> exec n OStep s = (s', r) ->
  (standby_turn s (cur s') /\ now s' = now s) \/
  ((forall c, ~ standby_turn s c) /\
   ((evl s = [] /\ cur s' = main /\ now s' = now s) \/
    exists e, In e (evl s) /\ ~ In e (evl s') /\ cur s' = e_c e /\ now s' = e_t e /\
      forall x, In x (evl s) -> x <> e -> precedes s e x)).
Proof.
  intros s n s' r H E. pose proof (started_Seqs _ H) as HS.
  pose proof (w_step_pop n s HS) as W. unfold wp in W. cbn [exec] in E. rewrite E in W.
  assert (K : (exists e, In e (evl s) /\ ~ In e (evl s') /\ e_c e = cur s' /\ now s' = e_t e /\ forall x, In x (evl s) -> ev_le e x) ->
    exists e, In e (evl s) /\ ~ In e (evl s') /\ cur s' = e_c e /\ now s' = e_t e /\
      forall x, In x (evl s) -> x <> e -> precedes s e x).
  { intros (e & I & N & A & B & M). exists e. repeat split; auto. intros x Ix Nx. apply le_precedes; auto. }
  destruct r as [a|x]; destruct W as [W|(T & W)]; auto; right; split; auto. destruct W as [W|W]; auto.
Qed.
(** what "order of scheduling" means: an event that was pending before some calls were made is
    earlier than every event that these calls have added, and the order among old ones stays *)
Theorem C02_scheduling_order : forall s s' a b, started s -> calls s s' ->
  In a (evl s) -> In a (evl s') -> In b (evl s') -> (~ In b (evl s) \/ earlier s a b) -> earlier s' a b.
Proof.
  intros s s' a b H C A A' B' D. pose proof (started_Seqs _ H) as HS.
  destruct (s_calls _ _ C HS) as (HS' & _ & N). apply earlier_seq; auto.
  destruct D as [D|(l1 & l2 & l3 & D)].
  - destruct (N b B') as [K|K]; [contradiction|]. unfold Seqs in HS. eapply incr_in in HS; eauto. lia.
  - unfold Seqs in HS. rewrite D in HS. apply incr_order in HS. auto.
Qed.
(** what "urgent" and "priority" mean: the arguments of the call that scheduled the event *)
Definition sched_args (o : op) : option (nat * xq * bool) :=
  match o with
  | OCreate c _ _ p u _ _ | OActivate c _ _ p u _ _ _ _ | OHold c _ p u _ _ | OResume c _ p u
  | ORemaining c _ p u => Some (c, p, u)
  | _ => None
  end.
Definition Rnew (c : nat) (p : xq) (u : bool) (s s' : env) : Prop :=
  (0 <= seq s)%Z -> (0 <= seq s')%Z /\ forall e, In e (evl s') -> In e (evl s) \/ (e_c e = c /\ e_prio e = p /\ (urgent e <-> u = true)).
Lemma Rnew_po : forall c p u, preorder (Rnew c p u).
Proof.
  constructor; unfold Rnew; [auto|]. intros a b d A B H. destruct (A H) as (A1 & A2). destruct (B A1) as (B1 & B2).
  split; auto. intros e I. destruct (B2 e I); auto.
Qed.
Lemma Rnew_same : forall c p u s s', seq s' = seq s -> evl s' = evl s -> Rnew c p u s s'.
Proof. unfold Rnew. intros c p u s s' -> ->. auto. Qed.
Lemma new_remove : forall c p u c', frames (Rnew c p u) (remove c').
Proof.
  intros c p u c' s. unfold remove, bind, get, put, setc, stat, when, ret.
  destruct (c_onev (comps s c')); cbn.
  - destruct (ev_del c' (evl s)) as [l'|] eqn:E; cbn; [|apply Rnew_po].
    apply ev_del_some in E. destruct E as (l1 & e & l2 & E & _ & ->).
    unfold Rnew. cbn. rewrite E. intros H. split; auto. intros x I. left. rewrite in_app_iff in *. cbn. tauto.
  - destruct (steqb _ _); apply Rnew_same; reflexivity.
Qed.
Lemma new_resched : forall c t p u cap, frames (Rnew c p u) (reschedule c t p u cap).
Proof.
  assert (K : forall c t p u, frames (Rnew c p u) (push c t p u)).
  2: { intros. unfold reschedule. fgo (Rnew_po c p u); auto. apply Rnew_same; reflexivity. }
  intros c t p u s. unfold push. destruct t as [q|]; cbn; [|apply Rnew_po].
  unfold Rnew. cbn. intros H. split; [lia|]. intros e I. apply in_app_iff in I. destruct I as [I|[<-|[]]]; auto.
  right. cbn. unfold urgent. cbn. repeat split; auto; destruct u; intros; try lia; auto; discriminate.
Qed.
Lemma new_check_fail : forall c p u c', frames (Rnew c p u) (check_fail c').
Proof. intros. apply (g_check_fail _ (Rnew_po c p u)); intros; apply Rnew_same; reflexivity. Qed.
Theorem C02_arguments : forall s n o s' r c p u e, started s -> exec n o s = (s', r) -> sched_args o = Some (c, p, u) ->
  In e (evl s') -> ~ In e (evl s) -> e_c e = c /\ e_prio e = p /\ (urgent e <-> u = true).
Proof.
  intros s n o s' r c p u e H E A I N. pose proof (started_Seqs _ H) as HS. apply incr_le in HS.
  assert (F : frames (Rnew c p u) (exec n o)).
  { destruct o; cbn in A; try discriminate; injection A as -> -> ->; cbn [exec].
    - unfold create. fgo (Rnew_po c p u); auto using new_remove, new_resched, new_check_fail; apply Rnew_same; reflexivity.
    - unfold activate. fgo (Rnew_po c p u); auto using new_remove, new_resched, new_check_fail; apply Rnew_same; reflexivity.
    - unfold hold, check_notdata. fgo (Rnew_po c p u); auto using new_remove, new_resched, new_check_fail; apply Rnew_same; reflexivity.
    - unfold resume. fgo (Rnew_po c p u); auto using new_remove, new_resched, new_check_fail; apply Rnew_same; reflexivity.
    - unfold set_remaining. fgo (Rnew_po c p u); auto using new_remove, new_resched, new_check_fail; apply Rnew_same; reflexivity. }
  pose proof (F s) as K. rewrite E in K. destruct (K HS) as (_ & K'). destruct (K' e I); [contradiction | auto].
Qed.
(** at time 5: an event of 2 (not urgent, earlier), one of 1 (urgent, later): 1 goes first *)
Example C02_case : exists s s' r a b, started s /\ exec 9 OStep s = (s', r) /\
  In a (evl s) /\ In b (evl s) /\ e_t a == e_t b /\ xeq (e_prio a) (e_prio b) /\ earlier s b a /\ urgent a /\
  cur s' = e_c a /\ now s' == 5.
Proof.
  destruct (script 9 two_holds env0) as [s|] eqn:E; [|vm_compute in E; discriminate].
  exists s. assert (ST : started s) by (exists 0; do 6 eexists; eapply runs_calls, script_runs; exact E).
  destruct (exec 9 OStep s) as [s' r] eqn:E2.
  exists s', r, (mkEv (2+3) (Fin 0) (-4) 1), (mkEv (0+5) (Fin 0) 2 2).
  split; auto. split; auto. clear ST. vm_compute in E. injection E as <-. vm_compute in E2. injection E2 as <- <-.
  cbn. repeat split; try reflexivity; auto. 
  exists [], [mkEv 100 PInf 3 0], []. reflexivity.
Qed.

(** ** C03 *)
Definition pending_of (s : env) (c : nat) : nat := length (filter (fun e => Nat.eqb (e_c e) c) (evl s)).
Definition one_event (s : env) : Prop :=
  (forall c, (pending_of s c <= 1)%nat) /\
  (forall c, In (c_status (comps s c)) [Passive; Data; Standby; Interrupted; Current] -> pending_of s c = 0%nat) /\
  (forall e, In e (evl s) -> c_sched (comps s (e_c e)) = Fin (e_t e)).
Lemma NoDup_count : forall l c, NoDup (map e_c l) -> (length (filter (fun e => Nat.eqb (e_c e) c) l) <= 1)%nat.
Proof.
  induction l as [|x t IH]; cbn; intros c H; [lia|]. inversion H; subst.
  destruct (Nat.eqb_spec (e_c x) c) as [EQ|NE]; [|apply IH; auto]. cbn.
  assert (E : filter (fun e => Nat.eqb (e_c e) c) t = []).
  { clear IH H H3. induction t as [|y t IH]; cbn; auto. destruct (Nat.eqb_spec (e_c y) c) as [E|E].
    - exfalso. apply H2. cbn. left. congruence.
    - apply IH. intros K. apply H2. cbn. auto. }
  rewrite E. cbn. lia.
Qed.
Lemma none_pending : forall l c, ~ In c (map e_c l) -> length (filter (fun e => Nat.eqb (e_c e) c) l) = 0%nat.
Proof.
  induction l as [|x t IH]; cbn; intros c H; auto. destruct (Nat.eqb_spec (e_c x) c); [tauto|]. apply IH. tauto.
Qed.
Lemma EI_one_event : forall s, EI s -> one_event s.
Proof.
  intros s H. split; [|split].
  - intros c. apply NoDup_count. apply (ei_nd _ H).
  - intros c K. apply none_pending. rewrite <- (ei_onev _ H). intros O.
    pose proof (ei_stat _ H c O) as S. unfold schedst in S. cbn in K.
    destruct S as [S|[S|S]]; rewrite S in K; repeat (destruct K as [K|K]; [discriminate|]); auto.
  - apply (ei_sched _ H).
Qed.
Theorem C03_one_event : forall s, reach s -> one_event s.
Proof. intros s H. apply EI_one_event, ki_e, reach_KI; auto. Qed.
(** also in the state in which a call that raises leaves the environment *)
Theorem C03_one_event_call : forall s n o s' r, reach s -> wf s o -> exec n o s = (s', r) -> one_event s'.
Proof.
  intros s n o s' r H W E. apply EI_one_event. pose proof (reach_KI _ H) as [KE KL _].
  pose proof (re_exec n o s KE KL W) as K. unfold wp in K. rewrite E in K. destruct r; auto.
Qed.
(** so taking a component off the event list never fails *)
Theorem C03_no_remove_error : forall s c, reach s -> snd (remove c s) = Ok tt.
Proof.
  intros s c H. pose proof (reach_KI _ H) as K. apply ki_e in K. unfold remove, bind, get, stat, put, setc, when, ret.
  destruct (c_onev (comps s c)) eqn:O; [|destruct (steqb (c_status (comps s c)) Standby) eqn:ES; cbn; rewrite ES; reflexivity].
  destruct (ev_del c (evl s)) eqn:E; [reflexivity|]. exfalso.
  apply (ei_onev _ K) in O. revert E O. generalize (evl s). induction l as [|x t IH]; cbn; [tauto|].
  destruct (Nat.eqb_spec (e_c x) c); [discriminate|]. destruct (ev_del c t); [discriminate|].
  intros _ [O|O]; [congruence|]. apply IH; auto.
Qed.
Example C03_case : exists s, reach s /\ (pending_of s 1 =? 1)%nat && (pending_of s 2 =? 1)%nat && (pending_of s 0 =? 1)%nat && (length (evl s) =? 3)%nat = true.
Proof.
  apply (script_reach 9 two_holds 0 (fun _ => res0 (Fin 3) 0 false false false false) (fun _ => 0%Z) (fun _ => PInf) (fun _ => true) false false).
  reflexivity.
Qed.

(** Outside the documented use the claim fails.  [violates o l]: after the script [l] of calls that all
    are in order, the further call [o] returns normally but breaks [one_event]. *)
Definition env1 : env :=
  init 0 (fun _ => res0 (Fin 1) 0 false true false false) (fun _ => 0%Z) (fun _ => PInf) (fun _ => true) false false.
Definition violates (o : op) (s0 : env) : Prop :=
  exists s s' n, reach s /\ calls s0 s /\ exec n o s = (s', Ok tt) /\ ~ one_event s'.
Lemma violates_script : forall n l o t0 R sv kc hp y d,
  match script n l (init t0 R sv kc hp y d) with
  | Some s => match exec n o s with
              | (s', Ok _) => existsb (fun e => (1 <? pending_of s' (e_c e))%nat ||
                    match c_status (comps s' (e_c e)) with Passive | Data | Standby | Interrupted | Current => true | _ => false end) (evl s')
              | _ => false
              end
  | None => false
  end = true -> violates o (init t0 R sv kc hp y d).
Proof.
  intros n l o t0 R sv kc hp y d H. destruct (script n l (init t0 R sv kc hp y d)) as [s|] eqn:E; [|discriminate].
  destruct (exec n o s) as [s' [[]|e]] eqn:E2; [|discriminate].
  exists s, s', n. split; [exists t0, R, sv, kc, hp, y, d; eapply script_runs; eauto|].
  split; [eapply runs_calls, script_runs; eauto|]. split; auto.
  intros (A & B & _). apply existsb_exists in H. destruct H as (e & I & H). apply orb_true_iff in H. destruct H as [H|H].
  - apply Nat.ltb_lt in H. specialize (A (e_c e)). lia.
  - assert (Z : pending_of s' (e_c e) = 0%nat).
    { apply B. destruct (c_status (comps s' (e_c e))); try discriminate; cbn; auto 10. }
    unfold pending_of in Z. apply length_zero_iff_nil in Z.
    assert (K : In e (filter (fun e0 => Nat.eqb (e_c e0) (e_c e)) (evl s'))) by (apply filter_In; rewrite Nat.eqb_refl; auto).
    rewrite Z in K. destruct K.
Qed.
(** remaining_duration(5) on a data component *)
Theorem C03_remaining_on_data_refuted : violates (ORemaining 1 (Fin 5) (Fin 0) false) env0.
Proof. apply (violates_script 9 []). reflexivity. Qed.
(** request() without resources: the component stays current and is on the event list *)
Theorem C03_empty_request_refuted : violates (ORequest 1 [] false SNone (Fin 0) false None) env0.
Proof. apply (violates_script 9 (firstn 4 two_holds)). reflexivity. Qed.
(** run() while main is still scheduled (from a process) *)
Theorem C03_nested_run_refuted : violates (ORun (SDur (Fin 7)) PInf false None) env0.
Proof. apply (violates_script 9 (firstn 4 two_holds)). reflexivity. Qed.
(** a component that holds a preemptive resource requests it again with a better priority and
    more than the capacity, with a fail_delay: it bumps itself and gets two events *)
Theorem C03_self_bump_refuted : violates (ORequest 1 [(0%nat, 2, Fin 0)] false (SDur (Fin 10)) (Fin 0) false None) env1.
Proof.
  apply (violates_script 9 (firstn 4 two_holds ++ [ORequest 1 [(0%nat, 1, Fin 5)] false SNone (Fin 0) false None; OStep])).
  reflexivity.
Qed.

(** ** C11 *)
Theorem C11_keys_distinct : forall s l1 a l2 b l3, started s -> evl s = l1 ++ a :: l2 ++ b :: l3 ->
  ~ (e_t a == e_t b /\ xeq (e_prio a) (e_prio b) /\ e_seq a = e_seq b).
Proof.
  intros s l1 a l2 b l3 H E (_ & _ & Q). apply started_Seqs in H. unfold Seqs in H. rewrite E in H.
  apply incr_order in H. lia.
Qed.
(** two events with the same time and priority *)
Example C11_case : exists s a b, started s /\ earlier s a b /\ e_t a == e_t b /\ xeq (e_prio a) (e_prio b).
Proof.
  destruct (script 9 two_holds env0) as [s|] eqn:E; [|vm_compute in E; discriminate].
  exists s, (mkEv (0+5) (Fin 0) 2 2), (mkEv (2+3) (Fin 0) (-4) 1).
  split; [exists 0; do 6 eexists; eapply runs_calls, script_runs; exact E|].
  vm_compute in E. injection E as <-. split; [exists [], [mkEv 100 PInf 3 0], []; reflexivity|]. split; reflexivity.
Qed.

Print Assumptions C01_clock_never_backwards.
Print Assumptions C01_user_clock.
Print Assumptions C02_dispatch_order.
Print Assumptions C02_scheduling_order.
Print Assumptions C02_arguments.
Print Assumptions C03_one_event.
Print Assumptions C03_one_event_call.
Print Assumptions C03_no_remove_error.
Print Assumptions C11_keys_distinct.
