(** Properties C24, C25, C26: waiting for states. *)
From Coq Require Import QArith Lqa List Bool Arith ZArith Lia.
From Verif Require Import Base Kernel Wp KernelE KernelL KernelX KernelT KernelU KernelR KernelQ KernelS KernelI KernelP KernelA KernelB KernelC KernelG KernelV KernelW KernelY PropRes PropReq PropSched.
Import ListNotations.
Open Scope Q_scope.
Local Arguments keys : simpl never.

(** ** What the documentation says *)
(** the components in the waiters queue of a state, in order *)
Definition waiters (s : env) (st : nat) : list nat := map fst (qs s (QWait st)).
(** the condition of a component x, when the states have the values [vals]: any, or all, of the listed
    states have an accepted value, or (wait_for) the given condition holds *)
Definition met (vals : nat -> Z) (x : comp) : Prop :=
  match c_cond x with
  | Some f => f vals = true
  | None =>
    if c_wall x then Forall (fun w => snd w (vals (fst w)) = true) (c_waits x)
    else Exists (fun w => snd w (vals (fst w)) = true) (c_waits x)
  end.
(** the values after state st got the value v *)
Definition with_value (vals : nat -> Z) (st : nat) (v : Z) (x : nat) : Z := if Nat.eqb x st then v else vals x.
Inductive subseq : list nat -> list nat -> Prop :=
| ss_nil : subseq [] []
| ss_take : forall x l k, subseq l k -> subseq (x :: l) (x :: k)
| ss_drop : forall x l k, subseq l k -> subseq l (x :: k).
(** events at time t with priority 0, in this order *)
Fixpoint wake_events (t : Q) (n : Z) (hs : list nat) : list ev :=
  match hs with [] => [] | c :: h => mkEv t (Fin 0) (n + 1) c :: wake_events t (n + 1) h end.
(** exactly the components hs go on, now, in this order; all others are left alone *)
Record released (s : env) (hs : list nat) (s' : env) : Prop := {
  rl_now : now s' = now s;
  rl_self : forall d, In d hs -> c_status (comps s' d) = Scheduled /\ c_sched (comps s' d) = Fin (now s) /\ forall t, ~ In d (waiters s' t);
  rl_oth : forall d, ~ In d hs -> comps s' d = comps s d;
  rl_q : forall t, qs s' (QWait t) = filter (fun m => negb (memb (fst m) hs)) (qs s (QWait t));
  rl_evl : evl s' = filter (fun e => negb (memb (e_c e) hs)) (evl s) ++ wake_events (now s) (seq s) hs }.

Lemma met_iff : forall s x, wait_ok s x = true <-> met (sval s) x.
Proof.
  intros s x. unfold wait_ok, met. destruct (c_cond x); [tauto|]. destruct (c_wall x).
  - rewrite forallb_forall, Forall_forall. tauto.
  - rewrite existsb_exists, Exists_exists. tauto.
Qed.
Lemma met_ext : forall v w x, (match c_cond x with Some f => f v = f w | None => True end) -> (forall t, v t = w t) -> met v x -> met w x.
Proof.
  intros v w x F H. unfold met. destruct (c_cond x) as [f|]; [congruence|].
  destruct (c_wall x); [rewrite !Forall_forall | rewrite !Exists_exists]; intros K.
  - intros y I. rewrite <- H. auto.
  - destruct K as (y & I & K). exists y. rewrite <- H. auto.
Qed.
Lemma subseq_filter : forall f l, subseq (filter f l) l.
Proof. induction l as [|a l IH]; cbn; [constructor|]. destruct (f a); constructor; auto. Qed.
Lemma subseq_in : forall l k, subseq l k -> forall x, In x l -> In x k.
Proof. induction 1; cbn; firstorder. Qed.
Lemma subseq_trans : forall l k, subseq l k -> forall m, subseq k m -> subseq l m.
Proof.
  intros l k H m K. revert l H. induction K; intros l' H; auto.
  - inversion H; subst; constructor; auto.
  - constructor; auto.
Qed.
Lemma subseq_firstn : forall n l, subseq (firstn n l) l.
Proof. induction n; destruct l; cbn; try constructor; auto. induction l; constructor; auto. Qed.
Lemma subseq_NoDup : forall l k, subseq l k -> NoDup k -> NoDup l.
Proof. induction 1; intros N; auto; inversion N; subst; auto. constructor; auto. intros I. eapply subseq_in in I; eauto. Qed.

Definition waits_for (s : env) (d : nat) (q : qref) : bool := match q with QWait t => memb t (map fst (c_waits (comps s d))) | _ => false end.
Lemma outof_filter : forall c s q, outof c (map fst (c_waits (comps s c))) (qs s) q = filter (fun m => negb (Nat.eqb c (fst m) && waits_for s (fst m) q)) (qs s q).
Proof.
  intros c s q. assert (T : forall l : list (nat * xq), l = filter (fun m => negb (Nat.eqb c (fst m) && false)) l).
  { induction l as [|a l IH]; cbn; auto. rewrite andb_false_r. cbn. f_equal. auto. }
  destruct q as [| |t| | | ]; cbn [outof waits_for]; auto. destruct (memb t (map fst (c_waits (comps s c)))) eqn:M.
  - unfold adel. apply filter_ext. intros (d, p). cbn. destruct (Nat.eqb_spec c d) as [->|]; auto. rewrite M. auto.
  - rewrite (T (qs s (QWait t))) at 1. apply filter_ext. intros (d, p). cbn. destruct (Nat.eqb_spec c d) as [->|]; auto. rewrite M. auto.
Qed.
Lemma filter_filter : forall A (f g : A -> bool) l, filter f (filter g l) = filter (fun a => g a && f a) l.
Proof. induction l as [|a l IH]; cbn; auto. destruct (g a); cbn; auto. destruct (f a); cbn; auto. f_equal. auto. Qed.
Lemma wakes_exact : forall s hs s', wakes s hs s' -> NoDup hs ->
  (forall q, qs s' q = filter (fun m => negb (memb (fst m) hs && waits_for s (fst m) q)) (qs s q)) /\
  evl s' = filter (fun e => negb (memb (e_c e) hs)) (evl s) ++ wake_events (now s) (seq s) hs.
Proof.
  induction 1 as [s|s c s1 hs s2 W K IH]; intros N.
  - split; [intros q|]; cbn [memb existsb wake_events]; unfold memb; cbn [existsb andb negb]; rewrite ?app_nil_r; symmetry; apply forallb_filter_id, forallb_forall; auto.
  - inversion N as [|? ? N1 N2]; subst. destruct (IH N2) as (IH1 & IH2). split.
    + intros q. rewrite IH1, (wk_q _ _ _ W), outof_filter, filter_filter. apply filter_ext. intros (d, p). cbn [fst]. unfold memb at 2. cbn [existsb]. fold (memb d hs).
      rewrite (Nat.eqb_sym d c). destruct (Nat.eqb_spec c d) as [->|D]; cbn [orb andb].
      * assert (memb d hs = false) by (apply memb_false_iff; auto). rewrite H. cbn. rewrite andb_true_r. auto.
      * unfold waits_for. destruct q; auto. rewrite (wk_oth _ _ _ W); auto.
    + rewrite IH2, (wk_evl _ _ _ W), filter_app, filter_filter, (wk_now _ _ _ W), (wk_seq _ _ _ W). cbn [filter e_c wake_events].
      assert (memb c hs = false) by (apply memb_false_iff; auto). rewrite H. cbn [negb]. rewrite <- app_assoc. cbn [app]. f_equal.
      apply filter_ext. intros e. unfold notof, memb. cbn [existsb]. rewrite negb_orb. auto.
Qed.
Lemma wakes_released : forall s hs s', GI none s -> NoDup hs -> wakes s hs s' -> released s hs s'.
Proof.
  intros s hs s' G N W. destruct (wakes_exact _ _ _ W N) as (A & B). destruct (wakes_facts _ _ _ W) as (C & D & E & F).
  assert (RQ : forall t, qs s' (QWait t) = filter (fun m => negb (memb (fst m) hs)) (qs s (QWait t))).
  { intros t. rewrite A. apply filter_ext_in. intros (d, p) I. cbn [fst]. f_equal.
    assert (M : mem s (QWait t) d) by (apply in_map_iff; exists (d, p); auto). apply (gi_mem _ _ G (QWait t) d eq_refl) in M. destruct M as (M & _). cbn in M. apply memb_iff in M.
    unfold waits_for. rewrite M. apply andb_true_r. }
  constructor; auto. intros d I. destruct (F d I) as (F1 & F2 & F3). split; auto. split; auto. intros t J. unfold waiters in J. rewrite RQ in J.
  apply in_map_iff in J. destruct J as ((d', p) & X & J). cbn in X. subst d'. apply filter_In in J. destruct J as (_ & J). cbn in J. apply memb_iff in I. rewrite I in J. discriminate.
Qed.
Lemma released_setv : forall st v s hs s', released (setv st v s) hs s' -> released s hs s'.
Proof. intros st v s hs s' []. constructor; auto. Qed.
Lemma upd_with : forall f st v x, upd f st v x = with_value f st v x.
Proof. reflexivity. Qed.
Lemma can_iff : forall s c, can s c = true <-> c_status (comps s c) <> Interrupted /\ met (sval s) (comps s c).
Proof.
  intros s c. unfold can. rewrite andb_true_iff, negb_true_iff, met_iff, steqb_false_iff. tauto.
Qed.

(** ** C24 *)
(** between two calls no waiting component has its condition met *)
Theorem C24_no_lost_wakeup : forall s c st, reach_p awake s -> In c (waiters s st) -> c_status (comps s c) = Waiting -> c_cond (comps s c) = None ->
  ~ met (sval s) (comps s c).
Proof.
  intros s c st R I S C M.
  assert (W : WI s).
  { destruct R as (t0 & RR & sv & kc & hp & y & d & F & H). apply (inv_runs awake WI) with (s := init t0 RR sv kc hp y d); auto using QI_init, WI_init.
    intros z o n z' r Q P _ E K Z. eapply WI_exec; eauto. }
  assert (N : c_waits (comps s c) <> []).
  { apply (gi_mem _ _ (qi_g _ (reach_p_QI _ _ R)) (QWait st) c eq_refl) in I. destruct I as (I & _). cbn in I. intros Z. rewrite Z in I. exact I. }
  apply met_iff in M. rewrite (W c S N) in M; auto; [discriminate|]. unfold local. rewrite C. exact Logic.I.
Qed.
(** the same for wait_for, when the condition depends on the listed states only *)
Theorem C24_no_lost_wakeup_for : forall s c st f, reach_p awake s -> In c (waiters s st) -> c_status (comps s c) = Waiting -> c_cond (comps s c) = Some f ->
  (forall v w : nat -> Z, (forall t, In c (waiters s t) -> v t = w t) -> f v = f w) -> ~ met (sval s) (comps s c).
Proof.
  intros s c st f R I S C LO M.
  assert (W : WI s).
  { destruct R as (t0 & RR & sv & kc & hp & y & d & F & H). apply (inv_runs awake WI) with (s := init t0 RR sv kc hp y d); auto using QI_init, WI_init.
    intros z o n z' r Q P _ E K Z. eapply WI_exec; eauto. }
  pose proof (qi_g _ (reach_p_QI _ _ R)) as G.
  assert (N : c_waits (comps s c) <> []).
  { apply (gi_mem _ _ G (QWait st) c eq_refl) in I. destruct I as (I & _). cbn in I. intros Z. rewrite Z in I. exact I. }
  apply met_iff in M. rewrite (W c S N) in M; auto; [discriminate|]. unfold local. rewrite C. intros v w H. apply LO. intros t J. apply H.
  apply (gi_mem _ _ G (QWait t) c eq_refl) in J. apply J.
Qed.
(** set and reset release precisely the waiting components whose condition is met with the new value, in the order of the queue *)
Theorem C24_set : forall s st v s', reachable s -> sval s st <> v -> call s (OSet st v) s' ->
  let vals := with_value (sval s) st v in
  exists hs, released s hs s' /\ subseq hs (waiters s st) /\
    (forall c, In c hs <-> In c (waiters s st) /\ c_status (comps s c) <> Interrupted /\ met vals (comps s c)) /\
    forall x, sval s' x = vals x.
Proof.
  intros s st v s' R N (W & n & r & E & C) vals. pose proof (reach_p_QI _ _ R) as Q.
  destruct (st_set_exact st v s (ki_e _ (qi_k _ Q)) (qi_g _ Q) N) as (z & T & K). cbn [exec] in E. rewrite E in T. injection T as -> _.
  exists (filter (can (setv st v s)) (waiters s st)). split.
  { apply (released_setv st v). apply wakes_released; auto; [apply GI_setv, Q|]. eapply subseq_NoDup; [apply subseq_filter | apply (gi_nd _ _ (qi_g _ Q))]. }
  split; [apply subseq_filter|]. split.
  - intros c. rewrite filter_In, can_iff. cbn. tauto.
  - intros x. destruct (wakes_facts _ _ _ K) as (V & _). rewrite V. reflexivity.
Qed.
(** setting the value the state has already does nothing *)
Theorem C24_set_same : forall s st s', call s (OSet st (sval s st)) s' -> s' = s.
Proof. intros s st s' (_ & n & r & E & _). cbn [exec] in E. rewrite st_set_same in E by auto. congruence. Qed.

(** ** C26 *)
(** the first n of the list, all of them if there is no maximum *)
Definition at_most (mx : option Z) (l : list nat) : list nat := match mx with None => l | Some n => firstn (Z.to_nat n) l end.
Theorem C26_trigger : forall s st v after mx s', reachable s -> (forall n, mx = Some n -> (0 < n)%Z) -> call s (OTrigger st v after mx) s' ->
  let vals := with_value (sval s) st v in
  let value_after := match after with Some a => a | None => sval s st end in
  exists ready hs s1 hs2,
    (subseq ready (waiters s st) /\ forall c, In c ready <-> In c (waiters s st) /\ c_status (comps s c) <> Interrupted /\ met vals (comps s c)) /\
    hs = at_most mx ready /\ released s hs s1 /\
    (subseq hs2 (waiters s1 st) /\ forall c, In c hs2 <-> In c (waiters s1 st) /\ c_status (comps s1 c) <> Interrupted /\ met (with_value vals st value_after) (comps s1 c)) /\
    released s1 hs2 s' /\
    sval s' st = value_after /\ forall x, x <> st -> sval s' x = sval s x.
Proof.
  intros s st v after mx s' R MX (W & n & r & E & C) vals va. pose proof (reach_p_QI _ _ R) as Q.
  destruct (st_trigger_exact st v after mx s (ki_e _ (qi_k _ Q)) (qi_g _ Q)) as (s1 & z & T & K & K2 & G1). cbn [exec] in E. rewrite E in T. injection T as -> _.
  fold va in K2. set (ready := filter (can (setv st v s)) (map fst (qs s (QWait st)))) in *.
  assert (PK : pick mx ready = at_most mx ready).
  { unfold pick, at_most. destruct mx as [m|]; auto. destruct (Z.leb_spec m 0); auto. specialize (MX m eq_refl). lia. }
  destruct (wakes_facts _ _ _ K) as (V1 & _ & _ & _). destruct (wakes_facts _ _ _ K2) as (V2 & _ & _ & _).
  assert (SV : forall x, sval z x = with_value (sval s) st va x).
  { intros x. rewrite V2. cbn. rewrite V1. cbn. unfold upd, with_value. destruct (Nat.eqb x st); auto. }
  assert (NR : NoDup (at_most mx ready)).
  { unfold at_most. assert (NoDup ready) by (eapply subseq_NoDup; [apply subseq_filter | apply (gi_nd _ _ (qi_g _ Q))]). destruct mx; auto.
    eapply subseq_NoDup; [apply subseq_firstn | auto]. }
  exists ready, (at_most mx ready), s1, (filter (can (setv st va s1)) (waiters s1 st)). split; [split|].
  - apply subseq_filter.
  - intros c. unfold ready. rewrite filter_In, can_iff. cbn. tauto.
  - split; auto. split.
    { rewrite PK in K. apply (released_setv st v). apply wakes_released; auto. apply GI_setv, Q. }
    split; [split|].
    + apply subseq_filter.
    + intros c. rewrite filter_In, can_iff. cbn [comps setv s_sval sval]. rewrite V1.
      tauto.
    + split; [|split].
      * apply (released_setv st va). apply wakes_released; auto; [apply GI_setv, G1|]. eapply subseq_NoDup; [apply subseq_filter | apply (gi_nd _ _ G1)].
      * rewrite SV. unfold with_value. rewrite Nat.eqb_refl. auto.
      * intros x D. rewrite SV. unfold with_value. destruct (Nat.eqb_spec x st); [contradiction | auto].
Qed.
(** at most n components go on because of the trigger value *)
Corollary C26_at_most : forall s st v after n s', reachable s -> (0 < n)%Z -> call s (OTrigger st v after (Some n)) s' ->
  exists hs s1 hs2, (length hs <= Z.to_nat n)%nat /\ subseq hs (waiters s st) /\ released s hs s1 /\ released s1 hs2 s'.
Proof.
  intros s st v after n s' R P C. destruct (C26_trigger s st v after (Some n) s' R ltac:(intros m E; injection E as <-; auto) C) as (ready & hs & s1 & hs2 & (A & _) & E & L1 & (B & _) & L2 & _).
  exists hs, s1, hs2. split; [subst hs; cbn; rewrite firstn_length; lia|]. split; [|auto]. subst hs. eapply subseq_trans; [apply subseq_firstn | exact A].
Qed.

(** ** C25 *)
(** wait: with the values of the states at the moment of the call *)
Definition cond_met (vals : nat -> Z) (args : list (nat * (Z -> bool) * xq)) (all : bool) : Prop :=
  if all then Forall (fun a => snd (fst a) (vals (fst (fst a))) = true) args else Exists (fun a => snd (fst a) (vals (fst (fst a))) = true) args.
Lemma cond_met_iff : forall vals args all x, c_waits x = map fst args -> c_wall x = all -> c_cond x = None -> (met vals x <-> cond_met vals args all).
Proof.
  intros vals args all x A B C. unfold met, cond_met. rewrite A, B, C. destruct all.
  - rewrite Forall_map. tauto.
  - rewrite Exists_map. tauto.
Qed.
Lemma no_waits : forall s c, GI none s -> c_waits (comps s c) = [] -> forall t, ~ In c (waiters s t).
Proof. intros s c G E t I. apply (gi_mem _ _ G (QWait t) c eq_refl) in I. destruct I as (I & _). cbn in I. rewrite E in I. exact I. Qed.
Theorem C25_wait : forall s c args all fail p u cap s', reachable s -> c_status (comps s c) <> Interrupted -> call s (OWait c args all fail p u cap) s' ->
  (cond_met (sval s) args all -> c_status (comps s' c) = Scheduled /\ c_sched (comps s' c) = Fin (now s') /\ forall t, ~ In c (waiters s' t)) /\
  (~ cond_met (sval s) args all -> c_status (comps s' c) = Waiting /\ forall a, In a args -> In c (waiters s' (fst (fst a)))) /\
  sval s' = sval s /\ now s' = now s /\ forall d, d <> c -> comps s' d = comps s d.
Proof.
  intros s c args all fail p u cap s' R SI (W & n & r & E & C). pose proof (reach_p_QI _ _ R) as Q.
  assert (Q' : QI s') by (eapply QI_exec; eauto).
  assert (UN : c_status (comps s c) = Current -> c_waits (comps s c) = []).
  { intros X. apply (free_idle s c); [apply (qi_k _ Q) | apply Q | rewrite X; auto with idle]. }
  pose proof (w_wait c args all fail p u cap s SI UN) as F. unfold wp in F. cbn [exec] in E. rewrite E in F. destruct r as [a|e]; [|destruct (C e eq_refl) as (_ & [])].
  destruct F as (s1 & _ & O1 & O2 & F1 & F2 & F3 & F).
  assert (SV : sval s' = sval s) by (rewrite (ot_sval _ _ _ O2); apply O1). assert (NW : now s' = now s) by (rewrite (ot_now _ _ _ O2); apply O1).
  assert (CM : can s1 c = true <-> cond_met (sval s) args all).
  { rewrite can_iff, (ot_sval _ _ _ O1), (cond_met_iff _ _ _ _ F1 F2 F3). pose proof (ot_st _ _ _ O1 SI). tauto. }
  split; [|split; [|split; [auto|]; split; [auto|]; intros d D; rewrite (ot_oth _ _ _ O2), (ot_oth _ _ _ O1); auto]].
  - intros M. apply CM in M. destruct F as [(_ & A1 & A2 & A3)|(X & _)]; [|congruence]. split; auto. split; [congruence|]. apply no_waits; auto. apply Q'.
  - intros M. destruct F as [(X & _)|(_ & A1 & A2 & _)]; [apply CM in X; contradiction|]. split; auto. intros b I.
    apply (gi_mem _ _ (qi_g _ Q') (QWait (fst (fst b))) c eq_refl). split; [|intros []]. cbn. rewrite A2, map_map. apply in_map_iff. exists b. auto.
Qed.
Theorem C25_wait_for : forall s c cond states fail p u cap s', reachable s -> c_status (comps s c) <> Interrupted -> call s (OWaitFor c cond states fail p u cap) s' ->
  (cond (sval s) = true -> c_status (comps s' c) = Scheduled /\ c_sched (comps s' c) = Fin (now s') /\ forall t, ~ In c (waiters s' t)) /\
  (cond (sval s) = false -> c_status (comps s' c) = Waiting /\ forall t, In t states -> In c (waiters s' t)) /\
  sval s' = sval s /\ now s' = now s /\ forall d, d <> c -> comps s' d = comps s d.
Proof.
  intros s c cond states fail p u cap s' R SI (W & n & r & E & C). pose proof (reach_p_QI _ _ R) as Q.
  assert (Q' : QI s') by (eapply QI_exec; eauto).
  assert (UN : c_status (comps s c) = Current -> c_waits (comps s c) = []).
  { intros X. apply (free_idle s c); [apply (qi_k _ Q) | apply Q | rewrite X; auto with idle]. }
  pose proof (w_wait_for c cond states fail p u cap s SI UN) as F. unfold wp in F. cbn [exec] in E. rewrite E in F. destruct r as [a|e]; [|destruct (C e eq_refl) as (_ & [])].
  destruct F as (s1 & _ & O1 & O2 & F1 & F2 & F).
  assert (SV : sval s' = sval s) by (rewrite (ot_sval _ _ _ O2); apply O1). assert (NW : now s' = now s) by (rewrite (ot_now _ _ _ O2); apply O1).
  assert (CM : can s1 c = cond (sval s)).
  { unfold can, wait_ok. rewrite F2, (ot_sval _ _ _ O1). pose proof (ot_st _ _ _ O1 SI) as X. apply steqb_false_iff in X. rewrite X. reflexivity. }
  rewrite CM in F. split; [|split; [|split; [auto|]; split; [auto|]; intros d D; rewrite (ot_oth _ _ _ O2), (ot_oth _ _ _ O1); auto]].
  - intros M. destruct F as [(_ & A1 & A2 & A3)|(X & _)]; [|congruence]. split; auto. split; [congruence|]. apply no_waits; auto. apply Q'.
  - intros M. destruct F as [(X & _)|(_ & A1 & A2 & _)]; [congruence|]. split; auto. intros t I.
    apply (gi_mem _ _ (qi_g _ Q') (QWait t) c eq_refl). split; [|intros []]. cbn. rewrite A2, map_map. apply in_map_iff. exists t. auto.
Qed.
(** a component that goes on is in no waiters queue *)
Theorem C25_gone : forall s c t, reachable s -> c_status (comps s c) = Current \/ c_status (comps s c) = Passive \/ c_status (comps s c) = Standby \/ c_status (comps s c) = Data -> ~ In c (waiters s t).
Proof.
  intros s c t R S. pose proof (reach_p_QI _ _ R) as Q. apply no_waits; [apply Q|]. apply (free_idle s c); [apply (qi_k _ Q) | apply Q|]. unfold idle. tauto.
Qed.
(** a call that gives state st the value v *)
Definition gives (s : env) (o : op) (st : nat) (v : Z) : Prop :=
  o = OSet st v \/ exists v1 a mx, o = OTrigger st v1 a mx /\ (v = v1 \/ v = match a with Some x => x | None => sval s st end).
(** x waits as before *)
Record waits_on (s s' : env) (x : nat) : Prop := {
  wo_st : c_status (comps s' x) = c_status (comps s x); wo_sched : c_sched (comps s' x) = c_sched (comps s x);
  wo_fail : c_failed (comps s' x) = c_failed (comps s x); wo_in : forall t, In x (waiters s' t) <-> In x (waiters s t);
  wo_cond : forall vals, met vals (comps s' x) <-> met vals (comps s x) }.
(** whatever happens: as long as no call addresses x itself and x is not made current (at its fail time),
    x waits on unchanged, until a state for which it waits is set and its condition is then met *)
Theorem C25_not_before : forall s x st o s', reachable s -> In x (waiters s st) -> c_status (comps s x) = Waiting -> call s o s' -> ~ directed x s o -> (o = OStep -> cur s' <> x) ->
  waits_on s s' x \/
  (exists st' v vals, gives s o st' v /\ In x (waiters s st') /\ (forall y, vals y = with_value (sval s) st' v y) /\ met vals (comps s x) /\
     c_status (comps s' x) = Scheduled /\ c_sched (comps s' x) = Fin (now s) /\ forall t, ~ In x (waiters s' t)).
Proof.
  intros s x st o s' R I S C D ST. pose proof (reach_p_QI _ _ R) as Q. pose proof (qi_g _ Q) as G. pose proof C as (W & n & r & E & CA).
  assert (Q' : QI s') by (eapply QI_exec; eauto). pose proof (qi_g _ Q') as G'.
  assert (N : c_waits (comps s x) <> []).
  { apply (gi_mem _ _ G (QWait st) x eq_refl) in I. destruct I as (I & _). cbn in I. intros Z. rewrite Z in I. exact I. }
  assert (SAME : comps s' x = comps s x -> waits_on s s' x).
  { intros X. constructor; rewrite ?X; auto; try tauto. intros t. unfold waiters. change (mem s' (QWait t) x <-> mem s (QWait t) x).
    rewrite (gi_mem _ _ G' (QWait t) x eq_refl), (gi_mem _ _ G (QWait t) x eq_refl). cbn. rewrite X. tauto. }
  assert (KEEP : keep x s s' -> waits_on s s' x).
  { intros K. pose proof (keep_fields _ _ _ K) as F. cbv zeta in F. destruct F as (K1 & K2 & _ & _ & _ & _ & _ & K3 & _ & _ & _ & K4 & _).
    assert (K5 : c_wall (comps s' x) = c_wall (comps s x) /\ c_cond (comps s' x) = c_cond (comps s x)).
    { destruct K as (K & _). split; [change (c_wall (w_claims [] (comps s' x)) = c_wall (w_claims [] (comps s x))) | change (c_cond (w_claims [] (comps s' x)) = c_cond (w_claims [] (comps s x)))]; rewrite K; auto. }
    destruct K5 as (K5 & K6). constructor; auto.
    - intros t. change (mem s' (QWait t) x <-> mem s (QWait t) x). rewrite (gi_mem _ _ G' (QWait t) x eq_refl), (gi_mem _ _ G (QWait t) x eq_refl). cbn. rewrite K3. tauto.
    - intros vals. unfold met. rewrite K3, K5, K6. tauto. }
  assert (NQ : NQm MHold x s). { apply one_NQm; auto; [eapply reach_p_one; eauto|]. cbn. intros Z. apply map_eq_nil in Z. contradiction. }
  destruct (sets o) eqn:SO.
  2: { left. apply KEEP. destruct (op_step_dec o) as [->|NS].
    - assert (SQ : Seqs s) by (apply started_Seqs, reach_started, reach_t_reach; eapply reach_p_t; exact R).
      assert (NL : ~ LS s x).
      { intros L. pose proof (reach_t_PI _ (reach_p_t _ _ R)) as [_ SB]. destruct (sb_st _ SB x L) as (X & _). congruence. }
      pose proof (v_step MHold x n s ltac:(discriminate) SQ NQ (or_introl NL)) as V. unfold wp in V. cbn [exec] in E. rewrite E in V.
      destruct r; destruct (V (ST eq_refl)) as (_ & [(_ & K)|[]]); auto.
    - pose proof (v_exec x MHold ltac:(discriminate) n o s ltac:(congruence) NS NQ D) as V. unfold wp in V. rewrite E in V.
      destruct r; destruct (V NQ) as (_ & [K|[]]); auto. }
  assert (OO : (exists st' v, o = OSet st' v) \/ exists st' v a mx, o = OTrigger st' v a mx) by (destruct o; try discriminate; eauto 8).
  destruct OO as [(st' & v & ->)|(st' & v & a & mx & ->)].
  - destruct (Z.eq_dec (sval s st') v) as [X|X].
    { left. apply SAME. cbn [exec] in E. rewrite st_set_same in E by auto. injection E as <- _. auto. }
    destruct (C24_set s st' v s' R X C) as (hs & RL & _ & IFF & SV). destruct (in_dec Nat.eq_dec x hs) as [J|J]; [|left; apply SAME; apply RL; auto].
    right. pose proof (proj1 (IFF x) J) as (J1 & _ & J2). destruct (rl_self _ _ _ RL x J) as (A1 & A2 & A3).
    exists st', v, (with_value (sval s) st' v). split; [left; auto|]. split; [auto|]. split; auto.
  - assert (MX : exists hs s1 hs2, released s hs s1 /\ released s1 hs2 s' /\ subseq hs (waiters s st') /\ subseq hs2 (waiters s1 st') /\
       (forall c, In c hs -> met (with_value (sval s) st' v) (comps s c)) /\
       (forall c, In c hs2 -> met (with_value (with_value (sval s) st' v) st' (match a with Some x => x | None => sval s st' end)) (comps s1 c))).
    { destruct (st_trigger_exact st' v a mx s (ki_e _ (qi_k _ Q)) G) as (s1 & z & T & K & K2 & G1). cbn [exec] in E. rewrite E in T. injection T as -> _. cbv zeta in K2.
      set (ready := filter (can (setv st' v s)) (map fst (qs s (QWait st')))) in *. set (va := match a with Some x => x | None => sval s st' end) in *.
      assert (SB : subseq (pick mx ready) ready).
      { unfold pick. destruct mx as [m|]; [destruct (m <=? 0)%Z; [|apply subseq_firstn]|]; clear; induction ready; constructor; auto. }
      assert (SR : subseq (pick mx ready) (waiters s st')) by (eapply subseq_trans; [exact SB | apply subseq_filter]).
      destruct (wakes_facts _ _ _ K) as (V1 & _).
      exists (pick mx ready), s1, (filter (can (setv st' va s1)) (waiters s1 st')). split; [|split; [|split; [exact SR|split; [apply subseq_filter|split]]]].
      - apply (released_setv st' v), wakes_released; auto; [apply GI_setv; auto|]. eapply subseq_NoDup; [exact SR | apply (gi_nd _ _ G)].
      - apply (released_setv st' va), wakes_released; auto; [apply GI_setv; auto|]. eapply subseq_NoDup; [apply subseq_filter | apply (gi_nd _ _ G1)].
      - intros c J. eapply subseq_in in J; [|exact SB]. apply filter_In in J. destruct J as (_ & J). apply can_iff in J. apply J.
      - intros c J. apply filter_In in J. destruct J as (_ & J). apply can_iff in J. destruct J as (_ & J). cbn [comps setv s_sval sval] in J. rewrite V1 in J. exact J. }
    destruct MX as (hs & s1 & hs2 & L1 & L2 & B1 & B2 & M1 & M2). destruct (in_dec Nat.eq_dec x hs2) as [J|J].
    + right. destruct (rl_self _ _ _ L2 x J) as (A1 & A2 & A3). rewrite (rl_now _ _ _ L1) in A2.
      assert (X : comps s1 x = comps s x). { apply (rl_oth _ _ _ L1). intros Z. destruct (rl_self _ _ _ L1 x Z) as (_ & _ & Y). apply (Y st'). eapply subseq_in; eauto. }
      exists st', (match a with Some x => x | None => sval s st' end), (with_value (with_value (sval s) st' v) st' (match a with Some x => x | None => sval s st' end)).
      split; [right; exists v, a, mx; auto|]. split.
      { eapply subseq_in in J; [|exact B2]. unfold waiters in J. rewrite (rl_q _ _ _ L1) in J. apply in_map_iff in J. destruct J as ((d, p) & Y & J). cbn in Y. subst d. apply filter_In in J. destruct J as (J & _).
        unfold waiters. apply in_map_iff. exists (x, p). auto. }
      split; [intros y; unfold with_value; destruct (Nat.eqb y st'); auto|]. rewrite <- X. split; [apply M2; auto | auto].
    + destruct (in_dec Nat.eq_dec x hs) as [Z|Z]; [|left; apply SAME; rewrite (rl_oth _ _ _ L2), (rl_oth _ _ _ L1); auto].
      right. destruct (rl_self _ _ _ L1 x Z) as (A1 & A2 & A3). exists st', v, (with_value (sval s) st' v). split; [right; exists v, a, mx; auto|].
      split; [eapply subseq_in; eauto|]. split; auto. split; [auto|]. rewrite (rl_oth _ _ _ L2) by auto. split; auto. split; auto. intros t Y. apply (A3 t).
      unfold waiters in Y. rewrite (rl_q _ _ _ L2) in Y. apply in_map_iff in Y. destruct Y as ((d, p) & Y1 & Y). cbn in Y1. subst d. apply filter_In in Y. unfold waiters. apply in_map_iff. exists (x, p). tauto.
Qed.

(** ** Concrete cases *)
Definition awakeb (s : env) (o : op) : bool :=
  match o with OWait c _ _ _ _ _ _ | OWaitFor c _ _ _ _ _ _ => negb (steqb (c_status (comps s c)) Interrupted) | _ => true end.
Lemma awakeb_awake : forall s o, awakeb s o = true -> awake s o.
Proof. intros s o H. destruct o; cbn in *; auto; apply negb_true_iff, steqb_false_iff in H; auto. Qed.
Definition eqv (v : Z) (x : Z) : bool := (x =? v)%Z.
Definition wt (c : nat) (l : list (nat * Z)) (all : bool) : op := OWait c (map (fun a => (fst a, eqv (snd a), Fin 0)) l) all SNone (Fin 0) false None.
Definition both (v : nat -> Z) : bool := (v 0%nat + v 1%nat =? 3)%Z.
(** 1 waits for state 0 to be 1, 2 for state 0 to be 2, 3 for state 0 to be 1 and state 1 to be 1, 4 for state 0 to be 1 or state 1 to be 5,
    5 for the sum of states 0 and 1 to be 3 *)
Definition wlist : list op := [mk 1; mk 2; mk 3; mk 4; mk 5; go; OStep; wt 1 [(0%nat, 1%Z)] false; OStep; wt 2 [(0%nat, 2%Z)] false; OStep; wt 3 [(0%nat, 1%Z); (1%nat, 1%Z)] true;
  OStep; wt 4 [(0%nat, 1%Z); (1%nat, 5%Z)] false; OStep; OWaitFor 5 both [0%nat; 1%nat] SNone (Fin 0) false None].
Definition wst : env := stp awakeb envr wlist.
Lemma wst_reach : reach_p awake wst.
Proof. apply stp_reach with (b := awakeb); [apply awakeb_awake | apply rs0_fresh | vm_compute; reflexivity]. Qed.
Lemma stp_awake : forall l, okp awakeb envr l = true -> reach_p awake (stp awakeb envr l).
Proof. intros l H. apply stp_reach with (b := awakeb); [apply awakeb_awake | apply rs0_fresh | exact H]. Qed.
Definition rd (s : env) (l : list nat) := map (fun c => (c_status (comps s c), map fst (c_waits (comps s c)))) l.
Example C24_case : reach_p awake wst /\ waiters wst 0 = [1; 2; 3; 4; 5]%nat /\ waiters wst 1 = [3; 4; 5]%nat /\
  map (fun c => c_status (comps wst c)) [1; 2; 3; 4; 5]%nat = [Waiting; Waiting; Waiting; Waiting; Waiting] /\ c_cond (comps wst 3) = None /\
  ~ met (sval wst) (comps wst 3) /\ c_cond (comps wst 5) = Some both /\ ~ met (sval wst) (comps wst 5).
Proof.
  split; [exact wst_reach|]. split; [vm_compute; reflexivity|]. split; [vm_compute; reflexivity|]. split; [vm_compute; reflexivity|]. split; [vm_compute; reflexivity|].
  split; [|split; [vm_compute; reflexivity|]].
  - apply (C24_no_lost_wakeup wst 3 0 wst_reach); [vm_compute; tauto | vm_compute; reflexivity | vm_compute; reflexivity].
  - apply (C24_no_lost_wakeup_for wst 5 0 both wst_reach); [vm_compute; tauto | vm_compute; reflexivity | vm_compute; reflexivity|].
    intros v w H. unfold both. rewrite (H 0%nat), (H 1%nat); auto; vm_compute; tauto.
Qed.
(** setting state 0 to 1 lets 1 and 4 go, in that order *)
Example C24_case_set : let s' := fst (exec 19 (OSet 0 1) wst) in call wst (OSet 0 1) s' /\ waiters s' 0 = [2; 3; 5]%nat /\ waiters s' 1 = [3; 5]%nat /\
  map (fun c => c_status (comps s' c)) [1; 2; 3; 4; 5]%nat = [Scheduled; Waiting; Waiting; Scheduled; Waiting] /\ map e_c (evl s') = [0; 1; 4]%nat.
Proof. cbv zeta. split; [apply call_ok; vm_compute; reflexivity|]. vm_compute. repeat split. Qed.
Example C25_case : let s' := fst (exec 19 (wt 2 [(0%nat, 1%Z); (1%nat, 0%Z)] false) wst) in
  c_status (comps wst 2) <> Interrupted /\ call wst (wt 2 [(0%nat, 1%Z); (1%nat, 0%Z)] false) s' /\ cond_met (sval wst) [(0%nat, eqv 1, Fin 0); (1%nat, eqv 0, Fin 0)] false /\
  c_status (comps s' 2) = Scheduled /\ ~ In 2%nat (waiters s' 0).
Proof.
  cbv zeta. split; [vm_compute; discriminate|]. split; [apply call_ok; vm_compute; reflexivity|]. split; [unfold cond_met; apply Exists_cons_tl, Exists_cons_hd; vm_compute; reflexivity|].
  split; [vm_compute; reflexivity|]. vm_compute. intuition congruence.
Qed.
Example C25_case_not : let s' := fst (exec 19 (OSet 1 1) wst) in
  call wst (OSet 1 1) s' /\ In 3%nat (waiters wst 0) /\ ~ directed 3 wst (OSet 1 1) /\ c_status (comps wst 3) = Waiting /\ waits_on wst s' 3.
Proof.
  cbv zeta. assert (C : call wst (OSet 1 1) (fst (exec 19 (OSet 1 1) wst))) by (apply call_ok; vm_compute; reflexivity).
  assert (I : In 3%nat (waiters wst 0)) by (vm_compute; tauto). assert (S : c_status (comps wst 3) = Waiting) by (vm_compute; reflexivity).
  split; [exact C|]. split; [exact I|]. split; [intros []|]. split; [exact S|].
  assert (Z : c_status (comps (fst (exec 19 (OSet 1 1) wst)) 3) = Waiting) by (vm_compute; reflexivity).
  revert C Z. generalize (fst (exec 19 (OSet 1 1) wst)). intros s' C Z. assert (X : OSet 1 1 = OStep -> cur s' <> 3%nat) by (intros X; discriminate X).
  destruct (C25_not_before wst 3 0 (OSet 1 1) s' (reach_any _ _ wst_reach) I S C (fun f => match f with end) X) as [H|(st & v & vals & _ & _ & _ & _ & H & _)]; [exact H|].
  congruence.
Qed.
(** trigger with a maximum of 1: only 1 goes on, and the state keeps its value *)
Example C26_case : let o := OTrigger 0 1 None (Some 1%Z) in let s' := fst (exec 19 o wst) in reachable wst /\ call wst o s' /\
  map (fun c => c_status (comps s' c)) [1; 2; 3; 4; 5]%nat = [Scheduled; Waiting; Waiting; Waiting; Waiting] /\ sval s' 0%nat = 0%Z.
Proof. cbv zeta. split; [apply (reach_any _ _ wst_reach)|]. split; [apply call_ok; vm_compute; reflexivity|]. vm_compute. split; reflexivity. Qed.

(** ** What the faithful model does otherwise *)
(** max=0 honors all *)
Theorem C26_max_zero_refuted : exists s st v s' c, reachable s /\ call s (OTrigger st v None (Some 0%Z)) s' /\ c_status (comps s c) = Waiting /\ In c (waiters s st) /\
  ~ met (sval s) (comps s c) /\ c_status (comps s' c) = Scheduled.
Proof.
  exists wst, 0%nat, 1%Z, (fst (exec 19 (OTrigger 0 1 None (Some 0%Z)) wst)), 1%nat. split; [apply (reach_any _ _ wst_reach)|]. split; [apply call_ok; vm_compute; reflexivity|].
  split; [vm_compute; reflexivity|]. split; [vm_compute; tauto|]. split; [|vm_compute; reflexivity].
  apply (C24_no_lost_wakeup wst 1 0 wst_reach); [vm_compute; tauto | vm_compute; reflexivity | vm_compute; reflexivity].
Qed.
(** a wait made for an interrupted component is not honored at once, though its condition is met: the component waits at rest *)
Definition wint : list op := [mk 1; go; OStep; OHold 1 (SDur (Fin 10)) (Fin 0) false 0 None; OInterrupt 1; wt 1 [(0%nat, 0%Z)] false].
Theorem C24_interrupted_refuted : exists s c st, reachable s /\ In c (waiters s st) /\ c_status (comps s c) = Waiting /\ c_cond (comps s c) = None /\ met (sval s) (comps s c).
Proof.
  exists (stp any envr wint), 1%nat, 0%nat. split.
  { apply stp_reach with (b := any); auto using rs0_fresh. }
  split; [vm_compute; tauto|]. split; [vm_compute; reflexivity|]. split; [vm_compute; reflexivity|]. apply met_iff. vm_compute. reflexivity.
Qed.
(** wait_for with a condition that looks at a state that is not listed: the wake-up is lost *)
Definition wfor : list op := [mk 1; go; OStep; OWaitFor 1 both [0%nat] SNone (Fin 0) false None; OSet 1 3].
Theorem C24_unlisted_refuted : exists s c st, reach_p awake s /\ In c (waiters s st) /\ c_status (comps s c) = Waiting /\ met (sval s) (comps s c).
Proof.
  exists (stp awakeb envr wfor), 1%nat, 0%nat. split; [apply stp_awake; vm_compute; reflexivity|].
  split; [vm_compute; tauto|]. split; [vm_compute; reflexivity|]. apply met_iff. vm_compute. reflexivity.
Qed.
(** wait_for puts the component in the waiters queue by its event priority, not by request_priority: a parameter of wait_for
    that is documented as the priority in the queue does not exist in the model because the code does not use it (8961-9007) *)

Print Assumptions C24_no_lost_wakeup.
Print Assumptions C24_no_lost_wakeup_for.
Print Assumptions C24_set.
Print Assumptions C24_set_same.
Print Assumptions C25_wait.
Print Assumptions C25_wait_for.
Print Assumptions C25_gone.
Print Assumptions C25_not_before.
Print Assumptions C26_trigger.
Print Assumptions C26_at_most.
Print Assumptions C26_max_zero_refuted.
Print Assumptions C24_interrupted_refuted.
Print Assumptions C24_unlisted_refuted.
