(** No grantable request is left waiting: invariants of Resource._tryrequest. *)
From Coq Require Import QArith Lqa List Bool Arith ZArith Lia.
From Verif Require Import Base Kernel Wp KernelE KernelL KernelX KernelT KernelU KernelR KernelQ KernelA KernelB KernelC.
Import ListNotations.
Open Scope Q_scope.
Local Arguments keys : simpl never.

(** c waits for its request to be honored *)
Definition waitreq (s : env) (c : nat) : Prop := c_status (comps s c) = Requesting /\ c_requests (comps s c) <> [].

(** ** Quiet changes that let nobody (but x) start waiting *)
Record tame (x : option nat) (s s' : env) : Prop := {
  ta_q : quiet None s s';
  ta_try : forall r, r_trying (rsc s' r) = r_trying (rsc s r);
  ta_min : forall r, r_minq (rsc s' r) = r_minq (rsc s r) \/ (r_minq (rsc s' r) = PInf /\ qs s' (QReq r) = []);
  ta_yl : yl s' = yl s;
  ta_wait : forall d, x <> Some d -> c_status (comps s' d) = Requesting -> c_status (comps s d) = Requesting }.
Arguments ta_q {x} s s'. Arguments ta_try {x} s s'. Arguments ta_min {x} s s'. Arguments ta_yl {x} s s'. Arguments ta_wait {x} s s'.
Lemma tame_po : forall x, preorder (tame x).
Proof.
  intros x. constructor.
  - intros s. constructor; auto. apply quiet_po.
  - intros a b c A B. constructor.
    + eapply (po_trans _ quiet_po); [apply (ta_q _ _ A) | apply (ta_q _ _ B)].
    + intros r. rewrite (ta_try _ _ B), (ta_try _ _ A). auto.
    + intros r. destruct (ta_min _ _ B r) as [E|]; auto. destruct (ta_min _ _ A r) as [F|(F1 & F2)]; [left; congruence|].
      right. split; [congruence|]. destruct (qt_req _ _ (ta_q _ _ B) r) as (f & ->). rewrite F2. reflexivity.
    + rewrite (ta_yl _ _ B), (ta_yl _ _ A). auto.
    + intros d N H. apply (ta_wait _ _ A), (ta_wait _ _ B); auto.
Qed.
Lemma tame_same : forall x s s', rsc s' = rsc s -> qs s' = qs s -> comps s' = comps s -> yl s' = yl s -> tame x s s'.
Proof. intros x s s' E1 E2 E3 E4. constructor; rewrite ?E1, ?E2, ?E3; auto. apply quiet_same; auto. Qed.
Lemma tame_comp : forall x c f s, c_claims (f (comps s c)) = c_claims (comps s c) ->
  (c_requests (f (comps s c)) = c_requests (comps s c) \/ c_requests (f (comps s c)) = []) ->
  c_oneof (f (comps s c)) = c_oneof (comps s c) ->
  (x <> Some c -> c_status (f (comps s c)) = Requesting -> c_status (comps s c) = Requesting) -> tame x s (m_comp c f s).
Proof.
  intros x c f s A B C D. constructor; auto.
  - apply quiet_comp; auto.
  - intros d N. destruct (Nat.eq_dec d c) as [->|]; [rewrite comps_same | rewrite comps_diff]; auto.
Qed.
Lemma tame_rsc : forall x r f s, plain (f (rsc s r)) = plain (rsc s r) -> r_minq (f (rsc s r)) = r_minq (rsc s r) ->
  r_trying (f (rsc s r)) = r_trying (rsc s r) -> tame x s (m_rsc r f s).
Proof.
  intros x r f s A B C. constructor; auto.
  - apply quiet_rsc; auto.
  - intros y. rewrite rsc_m_rsc. destruct (Nat.eqb_spec y r) as [->|]; auto.
  - intros y. rewrite rsc_m_rsc. destruct (Nat.eqb_spec y r) as [->|]; auto.
Qed.
Lemma tame_leave : forall x q c s, (forall r, q <> QClaim r) -> tame x s (m_q q (adel c) s).
Proof. intros x q c s H. constructor; auto. apply quiet_leave; auto. Qed.
Lemma tame_q : forall x q f s, (forall r, q <> QClaim r) -> (forall r, q <> QReq r) -> tame x s (m_q q f s).
Proof. intros x q f s H K. constructor; auto. apply quiet_q; auto. Qed.
Ltac stt := intros; first [assumption | discriminate | congruence].
Ltac taf x := first [ apply tame_same; reflexivity | apply tame_comp; [reflexivity | auto; fail | reflexivity | solve [stt]] | apply tame_rsc; reflexivity
                  | apply tame_leave; intros; discriminate | apply tame_q; intros; discriminate ].
Section Tame.
  Context (x : option nat).
  Let PO := tame_po x.
  Local Notation R := (tame x).
  Ltac fta := fgo PO; try (solve [taf x]); auto with ta.
  Lemma ta_q_leave : forall q c, (forall r, q <> QClaim r) -> frames R (q_leave q c).
  Proof. intros. unfold q_leave. fgo PO. apply tame_leave; auto. Qed.
  Lemma ta_q_enter : forall q c p, (forall r, q <> QClaim r) -> (forall r, q <> QReq r) -> frames R (q_enter q c p).
  Proof. intros. unfold q_enter. fgo PO. apply tame_q; auto. Qed.
  Hint Extern 2 (frames R (q_leave _ _)) => (apply ta_q_leave; intros; discriminate) : ta.
  Hint Extern 2 (frames R (q_enter _ _ _)) => (apply ta_q_enter; intros; discriminate) : ta.
  Lemma ta_q_prio : forall q c, frames R (q_prio q c). Proof. intros. unfold q_prio. fta. Qed.
  Lemma ta_remove : forall c, frames R (remove c). Proof. intros. unfold remove. fta. Qed.
  Lemma ta_reschedule : forall c t p u cap, frames R (reschedule c t p u cap). Proof. intros. unfold reschedule, push. fta. Qed.
  Lemma ta_leave_req : forall c r, frames R (leave_req c r).
  Proof.
    intros c r s. unfold leave_req, q_leave, bind, get, put, when, ret, raise. destruct (inq c (qs s (QReq r))); [|apply PO].
    assert (T : R s (m_q (QReq r) (adel c) s)) by (apply tame_leave; discriminate). cbn beta iota.
    destruct (qs (m_q (QReq r) (adel c) s) (QReq r)) eqn:E; [|exact T]. eapply (po_trans _ PO); [exact T|].
    constructor; auto.
    - apply quiet_rsc. reflexivity.
    - intros y. cbn. unfold upd. destruct (Nat.eqb_spec y r) as [->|]; auto.
    - intros y. change (r_minq (rsc (m_rsc r (w_minq PInf) (m_q (QReq r) (adel c) s)) y) = r_minq (rsc s y) \/
        (r_minq (rsc (m_rsc r (w_minq PInf) (m_q (QReq r) (adel c) s)) y) = PInf /\ qs (m_q (QReq r) (adel c) s) (QReq y) = [])).
      rewrite rsc_m_rsc. destruct (Nat.eqb_spec y r) as [->|]; auto.
  Qed.
  Lemma ta_check_notdata : forall c, frames R (check_notdata c). Proof. intros. unfold check_notdata. fta. Qed.
  Lemma ta_check_notmain : forall c, frames R (check_notmain c). Proof. intros. unfold check_notmain. fta. Qed.
  Lemma ta_fail_time : forall sp, frames R (fail_time sp). Proof. intros. unfold fail_time. fta. Qed.
  Hint Resolve ta_q_prio ta_remove ta_reschedule ta_leave_req ta_check_notdata ta_check_notmain ta_fail_time : ta.
  Lemma ta_check_fail : forall c, frames R (check_fail c). Proof. intros. unfold check_fail. fta. Qed.
  Hint Resolve ta_check_fail : ta.
  Lemma ta_activate : forall c a d p u pr kr kw cap, frames R (activate c a d p u pr kr kw cap). Proof. intros. unfold activate. fta. Qed.
  Lemma ta_create : forall c a d p u sk cap, frames R (create c a d p u sk cap). Proof. intros. unfold create. fta. Qed.
  Lemma ta_hold : forall c sp p u i cap, frames R (hold c sp p u i cap). Proof. intros. unfold hold. fta. Qed.
  Lemma ta_passivate : forall c, frames R (passivate c). Proof. intros. unfold passivate. fta. Qed.
  Lemma ta_interrupt : forall c, frames R (interrupt c). Proof. intros. unfold interrupt. fta. Qed.
  Lemma ta_resume : forall c a p u s, c_istat (comps s c) = Scheduled -> R s (fst (resume c a p u s)).
  Proof.
    intros c a p u s H. apply wp_fst. unfold resume. apply wp_bind, wp_stat. apply wp_if; intros _; [|apply wp_raise, PO].
    apply wp_bind, wp_setc, wp_bind, wp_get.
    assert (T : forall f, c_status (f (comps s c)) = c_status (comps s c) \/ c_status (f (comps s c)) = Scheduled -> c_claims (f (comps s c)) = c_claims (comps s c) ->
       c_requests (f (comps s c)) = c_requests (comps s c) -> c_oneof (f (comps s c)) = c_oneof (comps s c) -> R s (m_comp c f s)).
    { intros f A B C D. apply tame_comp; auto. intros _ E. destruct A; congruence. }
    apply wp_if; intros _; [apply wp_ret; apply T; auto|]. apply wp_bind, wp_setc, wp_bind, wp_stat.
    match goal with |- wp _ _ _ (m_comp c ?g ?y) => set (s1 := y); assert (TZ : R s (m_comp c g s1)) end.
    { apply (po_trans _ PO) with s1; [apply T; auto|]. unfold s1. apply tame_comp; auto. rewrite comps_same. cbn. rewrite H. discriminate. }
    apply wp_if; intros _; [|apply wp_raise; auto]. apply wp_bind, wp_get.
    eapply wp_conseq; [apply (frames_wp _ R _ _ (ta_reschedule c _ p u (Some false))) | |]; cbv beta; intros; eapply (po_trans _ PO); eauto.
  Qed.
  Lemma ta_standby : forall c, frames R (standby c). Proof. intros. unfold standby. fta. Qed.
  Lemma ta_set_remaining : forall c v p u, frames R (set_remaining c v p u). Proof. intros. unfold set_remaining. fta. Qed.
  Lemma ta_leave_wait : forall c t, frames R (leave_wait c t). Proof. intros. unfold leave_wait. fta. Qed.
  Hint Resolve ta_activate ta_leave_wait : ta.
  Lemma ta_c_trywait : forall c, frames R (c_trywait c). Proof. intros. unfold c_trywait. fta. Qed.
  Hint Resolve ta_c_trywait : ta.
  Lemma ta_s_trywait : forall l m, frames R (s_trywait l m). Proof. induction l; intros m; cbn; fta. Qed.
  Hint Resolve ta_s_trywait : ta.
  Lemma ta_st_set : forall st v, frames R (st_set st v). Proof. intros. unfold st_set, set_sval, st_trywait. fta. Qed.
  Lemma ta_st_trigger : forall st v a m, frames R (st_trigger st v a m). Proof. intros. unfold st_trigger, set_sval, st_trywait. fta. Qed.
  Lemma ta_wait1 : forall c a, frames R (wait1 c a). Proof. intros c ((st, f), p). unfold wait1. fta. Qed.
  Hint Resolve ta_wait1 : ta.
  Lemma ta_wait' : forall c a al f p u cap, frames R (wait c a al f p u cap). Proof. intros. unfold wait. fta. Qed.
  Lemma ta_wait_for : forall c cd sts f p u cap, frames R (wait_for c cd sts f p u cap). Proof. intros. unfold wait_for. fta. Qed.
  Lemma ta_leave_from : forall d, frames R (leave_from d). Proof. intros. unfold leave_from. fta. Qed.
  Lemma ta_leave_to : forall d, frames R (leave_to d). Proof. intros. unfold leave_to. fta. Qed.
  Lemma ta_give : forall d c, frames R (give d c). Proof. intros. unfold give. fta. Qed.
  Hint Resolve ta_leave_from ta_leave_to ta_give : ta.
  Lemma ta_item : forall n, (forall k c w, frames R (item_enter n k c w)) /\ (forall k c, frames R (item_leave n k c)).
  Proof. induction n as [|n (IH1 & IH2)]; split; intros; cbn [item_enter item_leave]; unfold set_kmav; fta. Qed.
  Lemma ta_item_enter : forall n k c w, frames R (item_enter n k c w). Proof. intros. apply ta_item. Qed.
  Lemma ta_item_leave : forall n k c, frames R (item_leave n k c). Proof. intros. apply ta_item. Qed.
  Hint Resolve ta_item_enter ta_item_leave : ta.
  Lemma ta_from_store : forall n c ks f key rp fl fp u cap, x = Some c -> frames R (from_store n c ks f key rp fl fp u cap).
  Proof. intros. unfold from_store. fta. Qed.
  Lemma ta_to_try : forall n c i p ks, frames R (to_try n c i p ks). Proof. induction ks; cbn; fta. Qed.
  Hint Resolve ta_to_try : ta.
  Lemma ta_to_store : forall n c ks i rp p fl fp u cap, x = Some c -> frames R (to_store n c ks i rp p fl fp u cap).
  Proof. intros. unfold to_store. fta. Qed.
  Lemma ta_rescan_items : forall n k d l, frames R (rescan_items n k d l). Proof. induction l; cbn; fta. Qed.
  Hint Resolve ta_rescan_items : ta.
  Lemma ta_rescan : forall n k, frames R (rescan n k). Proof. intros. unfold rescan. fta. Qed.
  Hint Resolve ta_rescan : ta.
  Lemma ta_set_filter : forall n c f, frames R (set_filter n c f). Proof. intros. unfold set_filter. fta. Qed.
  Lemma ta_rescan_to_loop : forall n k ds, frames R (rescan_to_loop n k ds). Proof. induction ds; cbn [rescan_to_loop]; fta. Qed.
  Hint Resolve ta_rescan_to_loop : ta.
  Lemma ta_st_set_cap : forall n k cap, frames R (st_set_cap n k cap). Proof. intros. unfold st_set_cap, set_kmav. fta. Qed.
  Lemma ta_run : forall sp p u cap, frames R (run sp p u cap). Proof. intros. unfold run. fta. Qed.
  Lemma ta_exec : forall n o, still_op o = true ->
    match o with OFromStore c _ _ _ _ _ _ _ _ | OToStore c _ _ _ _ _ _ _ _ => x = Some c | OResume _ _ _ _ => False | _ => True end -> frames R (exec n o).
  Proof.
    intros n o H K. destruct o; try discriminate; try contradiction; cbn [exec]; auto using ta_create, ta_activate, ta_hold, ta_passivate, ta_interrupt,
      ta_standby, ta_set_remaining, ta_wait', ta_wait_for, ta_st_set, ta_st_trigger, ta_from_store, ta_to_store, ta_item_enter, ta_item_leave,
      ta_st_set_cap, ta_rescan, ta_set_filter, ta_run; unfold reset_now; fta.
  Qed.
End Tame.

(** ** Requests that could be honored *)
(** resources for which the statement is not made: preemptive ones, those that honor only the first or only the requesters of the
    highest priority, and, in yieldless mode, anonymous ones *)
Definition exc (s : env) (r : nat) : bool :=
  r_preempt (rsc s r) || r_hfirst (rsc s r) || r_hprio (rsc s r) || (yl s && r_anon (rsc s r)).
Definition tr (s : env) (r : nat) (q : Q) : Prop := r_anon (rsc s r) = true \/ 0 < q \/ exc s r = true.
(** c cannot be honored, but for resources x with D c x *)
Definition blocked (D : nat -> nat -> Prop) (s : env) (c : nat) : Prop :=
  let rq := c_requests (comps s c) in
  (c_oneof (comps s c) = true -> forall r q, In (r, q) rq -> can_one s c r q = true -> D c r /\ tr s r q) /\
  (c_oneof (comps s c) = false -> (forall r q, In (r, q) rq -> can_one s c r q = true) -> exists r q, In (r, q) rq /\ D c r /\ tr s r q).
Definition SS (D : nat -> nat -> Prop) (s : env) : Prop := forall c, waitreq s c -> blocked D s c.
Definition SSx (c : nat) (D : nat -> nat -> Prop) (s : env) : Prop := forall d, d <> c -> waitreq s d -> blocked D s d.
Definition MI (s : env) : Prop := forall c r q, In (r, q) (c_requests (comps s c)) -> r_anon (rsc s r) = false -> xle (r_minq (rsc s r)) (Fin q).
Record J (s : env) : Prop := { j_g : GI none s; j_a : AM s; j_m : MI s }.
Definition OKD (D : nat -> nat -> Prop) (s : env) : Prop := forall r c, exc s r = true \/ r_trying (rsc s r) = true -> D c r.
Definition sm (s s' : env) : Prop := (forall r, kind (rsc s' r) = kind (rsc s r) /\ r_trying (rsc s' r) = r_trying (rsc s r)) /\ yl s' = yl s.
Lemma sm_refl : forall s, sm s s. Proof. repeat split. Qed.
Lemma sm_trans : forall a b c, sm a b -> sm b c -> sm a c.
Proof. intros a b c (A & B) (C & D). split; [|congruence]. intros r. destruct (A r), (C r). split; congruence. Qed.
Lemma sm_exc : forall s s' r, sm s s' -> exc s' r = exc s r.
Proof. intros s s' r (A & B). destruct (A r) as (K & _). injection K as K1 K2 K3 K4. unfold exc. congruence. Qed.
Lemma sm_anon : forall s s' r, sm s s' -> r_anon (rsc s' r) = r_anon (rsc s r).
Proof. intros s s' r (A & B). destruct (A r) as (K & _). injection K as K1 K2 K3 K4. congruence. Qed.
Lemma sm_OKD : forall s s' D, sm s s' -> OKD D s -> OKD D s'.
Proof. intros s s' D S O r c. rewrite (sm_exc _ _ _ S). destruct S as (A & _). destruct (A r) as (_ & ->). apply O. Qed.
Lemma tame_sm : forall x s s', tame x s s' -> sm s s'.
Proof. intros x s s' T. split; [|apply (ta_yl _ _ T)]. intros r. split; [apply plain_kind, (qt_rsc _ _ (ta_q _ _ T)) | apply (ta_try _ _ T)]. Qed.

Lemma SS_weak : forall (D D' : nat -> nat -> Prop) s, (forall c r, waitreq s c -> In r (keys (c_requests (comps s c))) -> D c r -> D' c r) -> SS D s -> SS D' s.
Proof.
  intros D D' s H S c W. specialize (S c W). destruct S as (A & B).
  assert (KI : forall r q, In (r, q) (c_requests (comps s c)) -> In r (keys (c_requests (comps s c)))).
  { intros r q I. unfold keys. change r with (fst (r, q)). apply in_map. auto. }
  split.
  - intros O r q I C. destruct (A O r q I C). split; eauto.
  - intros O C. destruct (B O C) as (r & q & I & X & Y). exists r, q. repeat split; eauto.
Qed.
Lemma blocked_weak : forall (D D' : nat -> nat -> Prop) s c, (forall r, D c r -> D' c r) -> blocked D s c -> blocked D' s c.
Proof.
  intros D D' s c H (A & B). split.
  - intros O r q I C. destruct (A O r q I C). split; eauto.
  - intros O C. destruct (B O C) as (r & q & I & X & Y). exists r, q. repeat split; eauto.
Qed.
Lemma not_granted : forall D s c, grant s c = [] -> c_requests (comps s c) <> [] -> blocked D s c.
Proof.
  intros D s c G N. unfold grant in G. split; intros O; rewrite O in G.
  - intros r q I C. destruct (find _ _) eqn:F; [discriminate|]. pose proof (find_none _ _ F (r, q) I) as K. cbn in K. congruence.
  - intros C. exfalso. destruct (forallb _ _) eqn:F.
    + destruct (c_requests (comps s c)) as [|(a, b) t]; [contradiction|]. discriminate.
    + assert (T : forallb (fun p => can_one s c (fst p) (snd p)) (c_requests (comps s c)) = true).
      { apply forallb_forall. intros (r, q) I. apply C; auto. }
      congruence.
Qed.
Lemma blocked_step : forall (D D' : nat -> nat -> Prop) s s' c, c_requests (comps s' c) = c_requests (comps s c) -> c_oneof (comps s' c) = c_oneof (comps s c) ->
  sm s s' -> (forall r, D c r -> D' c r) ->
  (forall r q, In (r, q) (c_requests (comps s c)) -> can_one s' c r q = true -> can_one s c r q = true \/ (D' c r /\ tr s r q)) ->
  blocked D s c -> blocked D' s' c.
Proof.
  intros D D' s s' c E1 E2 S W K (A & B). unfold blocked. rewrite E1, E2.
  assert (T : forall r q, tr s r q -> tr s' r q) by (intros r q; unfold tr; rewrite (sm_exc _ _ _ S), (sm_anon _ _ _ S); auto).
  split; intros O.
  - intros r q I C. destruct (K r q I C) as [C0|(X & Y)]; [|auto]. destruct (A O r q I C0). auto.
  - intros C. destruct (forallb (fun p => can_one s c (fst p) (snd p)) (c_requests (comps s c))) eqn:F.
    + rewrite forallb_forall in F. destruct (B O) as (r & q & I & X & Y); [intros r q I; apply (F (r, q) I)|]. exists r, q. auto.
    + assert (exists p, In p (c_requests (comps s c)) /\ can_one s c (fst p) (snd p) = false) as ((r & q) & I & N).
      { clear - F. induction (c_requests (comps s c)) as [|p t IH]; [discriminate|]. cbn in F. destruct (can_one s c (fst p) (snd p)) eqn:E.
        - destruct (IH F) as (p' & I & N). exists p'. split; [right|]; auto.
        - exists p. split; [left|]; auto. }
      cbn in N. destruct (K r q I (C r q I)) as [X|(X & Y)]; [congruence|]. exists r, q. auto.
Qed.
Lemma can_plain : forall s c r q, exc s r = false -> can_one s c r q = enough (rsc s r) q.
Proof.
  intros s c r q E. unfold exc in E. apply orb_false_iff in E. destruct E as (E & _). apply orb_false_iff in E. destruct E as (E & E1).
  apply orb_false_iff in E. destruct E as (_ & E2). unfold can_one, allowed. rewrite E1, E2. reflexivity.
Qed.
Lemma enough_plain : forall R R' q, plain R = plain R' -> enough R q = enough R' q.
Proof. intros R R' q E. apply plain_claimed in E. destruct E as (A & B & _). unfold enough, avail. rewrite A, B. reflexivity. Qed.
(** the general step: availability may have grown on the resources in T only *)
Lemma SS_touch : forall (D T : nat -> nat -> Prop) s s', sm s s' -> (forall r c, exc s r = true -> D c r) ->
  (forall d, waitreq s' d -> waitreq s d /\ c_requests (comps s' d) = c_requests (comps s d) /\ c_oneof (comps s' d) = c_oneof (comps s d)) ->
  (forall d r q, waitreq s' d -> In (r, q) (c_requests (comps s d)) -> exc s r = false -> enough (rsc s' r) q = true ->
     enough (rsc s r) q = true \/ (T d r /\ (r_anon (rsc s r) = true \/ 0 < q))) ->
  (forall d, waitreq s' d -> blocked D s d) -> SS (fun c r => D c r \/ T c r) s'.
Proof.
  intros D T s s' S X W K SD c Wc. destruct (W c Wc) as (W0 & E1 & E2). apply (blocked_step D _ s s' c); auto.
  intros r q I C. destruct (exc s r) eqn:E.
  - right. split; [auto|]. right. right. auto.
  - rewrite can_plain in C by (rewrite (sm_exc _ _ _ S); auto). rewrite can_plain by auto. destruct (K c r q Wc I E C) as [|(Y & Z)]; auto.
    right. split; auto. unfold tr. tauto.
Qed.
Lemma tame_SS : forall (D : nat -> nat -> Prop) s s', tame None s s' -> (forall r c, exc s r = true -> D c r) -> SS D s -> SS D s'.
Proof.
  intros D s s' T X S. pose proof (tame_sm _ _ _ T) as SM.
  apply SS_weak with (D := fun c r => D c r \/ (fun _ _ => False) c r); [tauto|]. apply (SS_touch D (fun _ _ => False) s s'); auto.
  - intros d (W1 & W2). destruct (qt_rq _ _ (ta_q _ _ T) d) as [E|E]; [|congruence]. split; [|split; [auto | apply (qt_one _ _ (ta_q _ _ T)); discriminate]].
    split; [apply (ta_wait _ _ T); [discriminate | auto] | congruence].
  - intros d r q _ _ _ E. left. rewrite <- (enough_plain _ _ q (qt_rsc _ _ (ta_q _ _ T) r)). auto.
  - intros d (W1 & W2). apply S. destruct (qt_rq _ _ (ta_q _ _ T) d) as [E|E]; [|congruence].
    split; [apply (ta_wait _ _ T); [discriminate | auto] | congruence].
Qed.
Lemma GI_in_req : forall s d r q, GI none s -> In (r, q) (c_requests (comps s d)) -> qs s (QReq r) <> [].
Proof.
  intros s d r q G I E. assert (M : mem s (QReq r) d). { apply GI_mem_req; auto. unfold keys. change r with (fst (r, q)). apply in_map; auto. }
  unfold mem in M. rewrite E in M. destruct M.
Qed.
Lemma tame_MI : forall x s s', tame x s s' -> GI none s' -> MI s -> MI s'.
Proof.
  intros x s s' T G M c r q I A. rewrite (sm_anon _ _ _ (tame_sm _ _ _ T)) in A. destruct (ta_min _ _ T r) as [->|(_ & E)].
  - apply (M c); auto. destruct (qt_rq _ _ (ta_q _ _ T) c) as [E|E]; rewrite E in I; [auto | destruct I].
  - exfalso. eapply GI_in_req; eauto.
Qed.
Lemma tame_J : forall x s s', tame x s s' -> GI none s' -> J s -> J s'.
Proof.
  intros x s s' T G [G0 A M]. constructor; auto.
  - apply (AM_step (LQuiet None) s s'); auto. apply (ta_q _ _ T).
  - eapply tame_MI; eauto.
Qed.
(** with the invariants, a request of a non-anonymous resource is for nothing or can be given without any release *)
Lemma claimed_nonneg : forall s r, AM s -> r_anon (rsc s r) = false -> 0 <= r_claimed (rsc s r).
Proof. intros s r A N. pose proof (ti_le _ (am_ti _ A) r N). pose proof (total_nonneg s r (am_cl _ A)). lra. Qed.
Lemma req_nonneg : forall s c r q, GI none s -> AM s -> In (r, q) (c_requests (comps s c)) -> r_anon (rsc s r) = false -> 0 <= q.
Proof.
  intros s c r q G A I N. apply (cl_req _ (am_cl _ A) c r q); auto. apply In_alookup; auto. apply (gi_ks _ _ G c).
Qed.
Lemma enough_zero : forall R q, 0 <= r_claimed R -> 0 <= q -> 0 < q \/ enough R q = true.
Proof.
  intros R q C H. destruct (Qlt_le_dec 0 q); auto. right. unfold enough. replace (Qltb 0 q) with false by (symmetry; apply Qltb_false_iff; auto).
  apply negb_true_iff, Qltb_false_iff. unfold eps. lra.
Qed.
Lemma enough_more : forall R R' q, r_cap R' = r_cap R -> r_claimed R <= r_claimed R' -> 0 <= q -> 0 <= r_claimed R -> enough R' q = true -> enough R q = true.
Proof.
  intros R R' q C L H N E. destruct (enough_zero R q N H) as [P|]; auto. unfold enough in *. replace (Qltb 0 q) with true in * by (symmetry; apply Qltb_iff; auto).
  apply negb_true_iff in E. apply negb_true_iff. apply xltb_false_iff in E. apply xltb_false_iff. unfold avail in *. rewrite C in E.
  destruct (r_cap R) as [k|]; [cbn in *; lra | exact Logic.I].
Qed.

(** ** Who is honored, and when: no request is overtaken by an equal or larger one *)
Definition before (a b : nat) (l : list (nat * xq)) : Prop := exists l1 l2, l = l1 ++ l2 /\ In a (map fst l1) /\ In b (map fst l2).
Definition fair (s : env) (c : nat) : Prop :=
  forall d r q q', c_requests (comps s c) = [(r, q)] -> c_requests (comps s d) = [(r, q')] -> q' <= q -> waitreq s d ->
    exc s r = false -> r_anon (rsc s r) = false -> before d c (qs s (QReq r)) -> False.
(** the components that a call does not handle keep their requests, and their status while they have any *)
Definition keepB (Hd : nat -> Prop) (s s' : env) : Prop :=
  forall d, ~ Hd d -> c_requests (comps s' d) = c_requests (comps s d) /\ (c_requests (comps s d) <> [] -> c_status (comps s' d) = c_status (comps s d) /\ c_oneof (comps s' d) = c_oneof (comps s d)).
Lemma keepB_same : forall Hd s s', comps s' = comps s -> keepB Hd s s'. Proof. intros Hd s s' E d _. rewrite E. auto. Qed.
Lemma keepB_trans : forall Hd a b c, keepB Hd a b -> keepB Hd b c -> keepB Hd a c.
Proof. intros Hd a b c A B d N. destruct (A d N) as (A1 & A2), (B d N) as (B1 & B2). split; [congruence|]. intros K. destruct (A2 K), B2 as (B3 & B4); [congruence|]. split; congruence. Qed.
Definition kb (c : nat) (s s' : env) : Prop := forall d, d <> c -> c_requests (comps s' d) = c_requests (comps s d) /\
  c_status (comps s' d) = c_status (comps s d) /\ c_oneof (comps s' d) = c_oneof (comps s d).
Lemma kb_po : forall c, preorder (kb c).
Proof. intros c. constructor; [intros s d _; auto|]. intros a b e A B d N. destruct (A d N) as (? & ? & ?), (B d N) as (? & ? & ?). repeat split; congruence. Qed.
Lemma kb_comp : forall c f s, kb c s (m_comp c f s). Proof. intros c f s d N. rewrite comps_diff by auto. auto. Qed.
Lemma kb_same : forall c s s', comps s' = comps s -> kb c s s'. Proof. intros c s s' E d N. rewrite E. auto. Qed.
Lemma keepB_kb : forall (Hd : nat -> Prop) c s s', kb c s s' -> (Hd c \/ (c_requests (comps s c) = [] /\ c_requests (comps s' c) = [])) -> keepB Hd s s'.
Proof.
  intros Hd c s s' K H d N. destruct (Nat.eq_dec d c) as [->|E]; [|destruct (K d E); auto]. destruct H as [|(A & B)]; [contradiction|].
  split; congruence.
Qed.
Ltac fkb c := fgo (kb_po c); try (solve [apply kb_comp | apply kb_same; reflexivity]).
Lemma kb_remove : forall c, frames (kb c) (remove c). Proof. intros. unfold remove. fkb c. Qed.
Lemma kb_reschedule : forall c t p u cap, frames (kb c) (reschedule c t p u cap). Proof. intros. unfold reschedule, push. fkb c. Qed.
Lemma kb_check_fail : forall c, frames (kb c) (check_fail c). Proof. intros. unfold check_fail, leave_req, q_leave. fkb c. Qed.

Section Fair.
Context (Hd : nat -> Prop).
(** the changes of a segment without grants: only components that the call handles ask for something *)
Definition segl (l : lab) : Prop := match l with LGrant _ => False | LAsk c _ _ => Hd c | _ => True end.
Inductive fpath (P : lab -> Prop) : env -> env -> Prop :=
| fp_nil : forall s, fpath P s s
| fp_seg : forall s s1 s2, (forall l, (forall c, l <> LGrant c) -> P l) -> GI none s -> rpath segl s s1 -> keepB Hd s s1 -> GI none s1 ->
    fpath P s1 s2 -> fpath P s s2
| fp_cons : forall l s s1 s2, P l -> GI none s -> lstep l s s1 -> (forall c, l = LGrant c -> fair s c) -> (forall x, l = LQuiet x -> keepB Hd s s1) -> (forall c r q, l <> LAsk c r q) -> GI none s1 -> fpath P s1 s2 ->
    fpath P s s2.
Lemma fpath_trans : forall P a b c, fpath P a b -> fpath P b c -> fpath P a c.
Proof. intros P a b c H. induction H; auto; intros K; [eapply fp_seg | eapply fp_cons]; eauto. Qed.
Lemma fpath_weak : forall (P P' : lab -> Prop) a b, (forall l, P l -> P' l) -> fpath P a b -> fpath P' a b.
Proof. intros P P' a b H K. induction K; [apply fp_nil | eapply fp_seg | eapply fp_cons]; eauto. Qed.
Lemma fpath_quiet : forall (P : lab -> Prop) s s', P (LQuiet None) -> GI none s -> GI none s' -> quiet None s s' -> keepB Hd s s' -> fpath P s s'.
Proof. intros. eapply fp_cons with (l := LQuiet None); eauto; [discriminate | discriminate | apply fp_nil]. Qed.
Definition gql (l : lab) : Prop := match l with LQuiet None | LGrant _ => True | _ => False end.

Lemma enough_less : forall R q q', 0 <= r_claimed R -> 0 <= q' -> q' <= q -> enough R q = true -> enough R q' = true.
Proof.
  intros R q q' C H L E. destruct (enough_zero R q' C H) as [P|]; auto. unfold enough in *.
  replace (Qltb 0 q') with true by (symmetry; apply Qltb_iff; auto). replace (Qltb 0 q) with true in E by (symmetry; apply Qltb_iff; lra).
  apply negb_true_iff in E. apply negb_true_iff. apply xltb_false_iff in E. apply xltb_false_iff.
  destruct (xaddq (avail R) eps); cbn in *; [lra | auto].
Qed.
Lemma grant_single : forall s c r q, c_requests (comps s c) = [(r, q)] -> (grant s c <> [] <-> can_one s c r q = true).
Proof.
  intros s c r q E. unfold grant, keys. rewrite E. destruct (c_oneof (comps s c)); cbn; destruct (can_one s c r q); cbn; split; intros; congruence.
Qed.
(** granting c in a state where nobody else could be honored but for D *)
Lemma before_neq : forall a b l, NoDup (map fst l) -> before a b l -> a <> b.
Proof.
  intros a b l N (l1 & l2 & -> & I1 & I2) ->. rewrite map_app in N. clear - N I1 I2. induction (map fst l1) as [|x t IH]; cbn in *; [auto|].
  inversion N; subst. destruct I1 as [->|I1]; [|auto]. apply H1. apply in_or_app. auto.
Qed.
Lemma fair_intro : forall (D : nat -> nat -> Prop) s c, J s -> SSx c D s -> grant s c <> [] ->
  (forall d r q, c_requests (comps s c) = [(r, q)] -> exc s r = false -> r_anon (rsc s r) = false -> before d c (qs s (QReq r)) -> D d r -> False) -> fair s c.
Proof.
  intros D s c [G A M] S GR H d r q q' E1 E2 L W X N B. pose proof (S d (before_neq _ _ _ (gi_nd _ _ G _) B) W) as (O & F).
  apply (grant_single s c r q E1) in GR. rewrite can_plain in GR by auto.
  assert (C : can_one s d r q' = true).
  { rewrite can_plain by auto. apply (enough_less _ q); auto; [apply claimed_nonneg; auto|].
    apply (req_nonneg s d r q'); auto. rewrite E2. left; auto. }
  assert (DD : D d r).
  { destruct (c_oneof (comps s d)) eqn:E.
    - apply (O eq_refl r q'); auto. rewrite E2. left; auto.
    - destruct F as (r1 & q1 & I & Y & _); auto.
      + rewrite E2. intros r1 q1 [E3|[]]. injection E3 as <- <-. auto.
      + rewrite E2 in I. destruct I as [E3|[]]. injection E3 as <- <-. auto. }
  eapply H; eauto.
Qed.

(** ** Granting *)
Lemma granted_sm : forall s c s', granted s c s' -> yl s' = yl s /\ (forall r, kind (rsc s' r) = kind (rsc s r)) -> sm s s'.
Proof.
  intros s c s' (s1 & T & ->) (Y & K). split; auto. intros r. split; auto. change (rsc (m_comp c (w_requests []) s1) r) with (rsc s1 r).
  rewrite (tk_rsc _ _ _ _ _ T). destruct (alookup r (c_requests (comps s c))); auto.
  destruct (nonnil _), (memb r (grant s c)); reflexivity.
Qed.
Lemma grant_J : forall s c s', J s -> lstep (LGrant c) s s' -> J s' /\ sm s s' /\
  forall D : nat -> nat -> Prop, (forall r d, exc s r = true -> D d r) -> SSx c D s ->
    SS (fun d r => D d r \/ In r (filter (fun r => r_anon (rsc s r)) (keys (c_requests (comps s c))))) s'.
Proof.
  intros s c s' [G A M] L. pose proof L as (NI & NG & GR). pose proof (granted_GI _ _ _ G GR) as G'.
  pose proof (AM_step _ _ _ L G A) as A'.
  assert (SM : sm s s').
  { apply (granted_sm s c s'); auto. split; [|intros; eapply lstep_kind; eauto]. destruct GR as (s1 & T & ->). change (yl (m_comp c (w_requests []) s1)) with (yl s1).
    rewrite (tk_env _ _ _ _ _ T). reflexivity. }
  assert (OTH : forall d, d <> c -> comps s' d = comps s d).
  { intros d N. destruct GR as (s1 & T & ->). rewrite comps_diff by auto. apply (tk_oth _ _ _ _ _ T); auto. }
  assert (SELF : c_requests (comps s' c) = []) by (destruct GR as (s1 & T & ->); rewrite comps_same; reflexivity).
  split; [constructor; auto|split; auto].
  - intros d r q I N. destruct (Nat.eq_dec d c) as [->|D]; [rewrite SELF in I; destruct I|]. pose proof I as I0. rewrite OTH in I by auto.
    rewrite (sm_anon _ _ _ SM) in N. specialize (M d r q I N). destruct GR as (s1 & T & ->).
    change (rsc (m_comp c (w_requests []) s1) r) with (rsc s1 r). rewrite (tk_rsc _ _ _ _ _ T).
    pose proof (GI_in_req _ _ _ _ G' I0) as NE. change (qs (m_comp c (w_requests []) s1) (QReq r)) with (qs s1 (QReq r)) in NE.
    destruct (alookup r (c_requests (comps s c))); auto. destruct (qs s1 (QReq r)); [congruence|]. cbn [nonnil].
    destruct (memb r (grant s c)); auto.
  - intros D X S. apply (SS_touch D (fun _ r => In r (filter (fun r => r_anon (rsc s r)) (keys (c_requests (comps s c))))) s); auto.
    + intros d W. assert (N : d <> c) by (intros ->; destruct W as (_ & W); congruence). unfold waitreq in *. rewrite OTH in * by auto. auto.
    + intros d r q W I E C. pose proof (grant_rsc s c s' r GR) as P. rewrite (enough_plain _ _ q P) in C.
      destruct (alookup r (c_requests (comps s c))) as [v|] eqn:AL; auto. destruct (memb r (grant s c)); auto.
      destruct (r_anon (rsc s r)) eqn:N.
      * right. split; auto. apply filter_In. split; auto. eapply alookup_Some_key; eauto.
      * left. revert C. apply enough_more; auto.
        -- cbn. pose proof (cl_req _ (am_cl _ A) c r v AL N). lra.
        -- apply (req_nonneg s d r q); auto.
        -- apply claimed_nonneg; auto.
    + intros d W. assert (N : d <> c) by (intros ->; destruct W as (_ & W); congruence). apply S; auto. unfold waitreq in *. rewrite OTH in W by auto. auto.
Qed.

(** ** Resource._tryrequest *)
Definition post (D : nat -> nat -> Prop) (s0 s : env) : Prop := J s /\ SS D s /\ sm s0 s /\ fpath gql s0 s.
Lemma post_refl : forall D s, J s -> SS D s -> post D s s.
Proof. intros D s A B. exact (conj A (conj B (conj (sm_refl s) (fp_nil _ s)))). Qed.
Lemma post_trans : forall D D' a b c, post D a b -> post D' b c -> post D' a c.
Proof.
  intros D D' a b c (_ & _ & A1 & A2) (B1 & B2 & B3 & B4). exact (conj B1 (conj B2 (conj (sm_trans _ _ _ A1 B3) (fpath_trans _ _ _ _ A2 B4)))).
Qed.
Lemma post_weak : forall (D D' : nat -> nat -> Prop) a b, (forall c r, waitreq b c -> In r (keys (c_requests (comps b c))) -> D c r -> D' c r) -> post D a b -> post D' a b.
Proof. intros D D' a b H (A & B & C & E). split; [auto|]. split; [|auto]. apply (SS_weak D); auto. Qed.
Lemma post_tame1 : forall D s0 s s', post D s0 s -> OKD D s0 -> tame None s s' -> GI none s' -> keepB Hd s s' -> post D s0 s'.
Proof.
  intros D s0 s s' (P1 & P2 & P3 & P4) O T G KB. pose proof (tame_sm _ _ _ T) as SM.
  split; [eapply tame_J; eauto|]. split; [|split; [eapply sm_trans; eauto|]].
  - apply (tame_SS D s); auto. intros r c E. apply (sm_OKD _ _ _ P3 O). auto.
  - eapply fpath_trans; [exact P4|]. apply fpath_quiet; auto; [exact Logic.I | apply (j_g _ P1) | apply (ta_q _ _ T)].
Qed.
Lemma post_tame : forall A (m : M A) c D s0 s (Q : A -> env -> Prop), frames (kb c) m -> c_requests (comps s c) = [] -> frames (tame None) m -> frames (RG none) m -> OKD D s0 -> post D s0 s ->
  (forall a s', post D s0 s' -> (forall c, c_requests (comps s c) = [] -> c_requests (comps s' c) = []) -> Q a s') -> wp m Q (fun _ _ => True) s.
Proof.
  intros A m c0 D s0 s Q F0 E0 F1 F2 O P K. pose proof (frames_wp _ _ m s F1) as W1. pose proof (frames_wp _ _ m s F2) as W2. pose proof (frames_wp _ _ m s F0) as W0.
  eapply wp_conseq; [apply (wp_and _ _ _ _ _ _ _ W0 (wp_and _ _ _ _ _ _ _ W1 W2)) | |]; cbv beta; auto. intros a s' (KB & T & RGs). specialize (RGs (j_g _ (proj1 P))).
  apply K; [eapply post_tame1; eauto; eapply keepB_kb; [exact KB | right; split; [auto|]]; destruct (qt_rq _ _ (ta_q _ _ T) c0); congruence|]. intros c E. destruct (qt_rq _ _ (ta_q _ _ T) c); congruence.
Qed.
Definition plusr (D : nat -> nat -> Prop) (r : nat) : nat -> nat -> Prop := fun c x => D c x \/ x = r.
Definition plusl (D : nat -> nat -> Prop) (l : list nat) : nat -> nat -> Prop := fun c x => D c x \/ In x l.
Lemma OKD_plusl : forall D l s, OKD D s -> OKD (plusl D l) s. Proof. intros D l s O r c H. left. apply O; auto. Qed.
Lemma OKD_plusr : forall D r s, OKD D s -> OKD (plusr D r) s. Proof. intros D l s O r c H. left. apply O; auto. Qed.

(** what repeated grants leave: requests only disappear, queues only shrink *)
Lemma gql_step : forall l s s', gql l -> GI none s -> lstep l s s' ->
  (forall c, c_requests (comps s' c) = c_requests (comps s c) \/ c_requests (comps s' c) = []) /\
  (forall r, exists f, qs s' (QReq r) = filter f (qs s (QReq r))).
Proof.
  intros l s s' P G L. destruct l as [[x|]|c r q|c|c r v q0 b|r q|r cap]; try destruct P; cbn in L.
  - split; [apply (qt_rq _ _ L) | apply (qt_req _ _ L)].
  - destruct L as (_ & _ & s1 & T & ->). split.
    + intros d. destruct (Nat.eq_dec d c) as [->|N]; [rewrite comps_same; right; reflexivity|]. rewrite comps_diff by auto. rewrite (tk_oth _ _ _ _ _ T) by auto. auto.
    + intros r. change (qs (m_comp c (w_requests []) s1) (QReq r)) with (qs s1 (QReq r)). rewrite (tk_req _ _ _ _ _ T).
      destruct (memb r (keys (c_requests (comps s c)))); [rewrite adel_filter; eauto|]. exists (fun _ => true). rewrite filter_true. auto.
Qed.
Lemma gql_path : forall s s', fpath gql s s' ->
  (forall c, c_requests (comps s' c) = c_requests (comps s c) \/ c_requests (comps s' c) = []) /\
  (forall r, exists f, qs s' (QReq r) = filter f (qs s (QReq r))).
Proof.
  intros s s' H. induction H as [s|s s1 s2 P G L _ G1 H (IH1 & IH2)|l s s1 s2 P G L _ _ _ G1 H (IH1 & IH2)].
  - split; auto. intros r. exists (fun _ => true). rewrite filter_true. auto.
  - destruct (P (LAnon 0 None)). discriminate.
  - destruct (gql_step _ _ _ P G L) as (A & B). split.
    + intros c. destruct (IH1 c) as [->|]; auto.
    + intros r. destruct (IH2 r) as (f & ->), (B r) as (g & ->). rewrite filter_and. eauto.
Qed.

Section Try.
  Context (rt : nat -> M unit).
  Context (Hrt : forall r D s, J s -> OKD D s -> r_anon (rsc s r) = true -> SS (plusr D r) s -> wp (rt r) (fun _ s' => post D s s') (fun _ _ => True) s).
  Lemma w_ran : forall an D s0 s, OKD D s0 -> post (plusl D an) s0 s -> (forall r, In r an -> r_anon (rsc s0 r) = true) ->
    wp (mfor an rt) (fun _ s' => post D s0 s' /\ fpath gql s s') (fun _ _ => True) s.
  Proof.
    induction an as [|r t IH]; intros D s0 s O P N; cbn [mfor].
    - apply wp_ret. split; [|apply fp_nil]. eapply post_weak; [|exact P]. intros c r _ _ [|[]]; auto.
    - apply wp_bind. pose proof P as (P1 & P2 & P3 & P4).
      eapply wp_conseq; [apply (Hrt r (plusl D t) s); auto | |]; cbv beta; auto.
      + apply OKD_plusl. eapply sm_OKD; eauto.
      + rewrite (sm_anon _ _ _ P3). apply N. left; auto.
      + eapply SS_weak; [|exact P2]. intros c x _ _ [|[->|]]; unfold plusr, plusl; auto.
      + intros _ s' P'. eapply wp_conseq; [apply (IH D s0); auto; [eapply post_trans; eauto|] | |]; cbv beta; auto.
        * intros x I. apply N. right; auto.
        * intros _ s2 (X & Y). split; auto. eapply fpath_trans; [apply P' | exact Y].
  Qed.
  Lemma SS_x : forall c D s, SS D s -> SSx c D s. Proof. intros c D s S d _. apply S. Qed.
  Lemma w_ct : forall c D s, J s -> OKD D s -> SSx c D s -> (grant s c <> [] -> fair s c) ->
    wp (c_try rt c) (fun b s' => (b = false /\ s' = s /\ (c_status (comps s c) = Interrupted \/ grant s c = [])) \/
                              (b = true /\ post D s s' /\ c_requests (comps s' c) = [] /\ c_status (comps s c) <> Interrupted /\ grant s c <> []))
       (fun _ _ => True) s.
  Proof.
    intros c D s JS O S F. pose proof (j_g _ JS) as G. unfold c_try.
    apply wp_bind, wp_stat. apply wp_if; intros B; [apply wp_ret; left; apply steqb_iff in B; auto|]. apply steqb_false_iff in B.
    apply wp_bind, wp_get, wp_bind. eapply wp_eq; [apply grant_eq; auto|].
    destruct (grant s c) as [|r0 rh0] eqn:GR; [apply wp_ret; auto|]. rewrite <- GR.
    apply wp_bind, wp_get, wp_bind, wp_get, wp_bind. set (an := filter (fun r => r_anon (rsc s r)) (keys (c_requests (comps s c)))).
    eapply wp_conseq; [apply took_all; auto | cbv beta | intros ? ? []]. intros _ s1 T. apply wp_bind, wp_setc.
    set (s2 := m_comp c (w_requests []) s1).
    assert (L : lstep (LGrant c) s s2). { split; [auto|]. split; [congruence|]. exists s1. auto. }
    destruct (grant_J s c s2 JS L) as (J2 & SM & SS2). specialize (SS2 D (fun r d E => O r d (or_introl E)) S).
    assert (P2 : post (plusl D an) s s2).
    { split; [auto|]. split; [exact SS2|]. split; [auto|]. eapply fp_cons; [| exact G | exact L | | discriminate | discriminate | apply (j_g _ J2) | apply fp_nil]; [exact Logic.I|].
      intros c0 E. injection E as <-. apply F. congruence. }
    assert (R2 : c_requests (comps s2 c) = []) by (unfold s2; rewrite comps_same; reflexivity).
    pose proof (OKD_plusl D an s O) as OL.
    apply wp_bind. eapply (post_tame _ _ c); eauto with gq; [apply kb_remove | apply ta_remove|]. intros _ s3 P3 R3.
    apply wp_bind. eapply (post_tame _ _ c); eauto with gq.
    { fkb c. }
    { fgo (tame_po None). taf (@None nat). }
    { fgo (RG_po none). intros ?; apply GI_comp; auto. }
    intros _ s4 P4 R4. apply wp_bind, wp_get.
    apply wp_bind. eapply (post_tame _ _ c); eauto with gq; [apply kb_reschedule | apply ta_reschedule|]. intros _ s5 P5 R5.
    assert (R6 : c_requests (comps s5 c) = []) by auto.
    apply wp_bind, wp_get, wp_bind.
    assert (FIN : forall s', post D s s' -> (forall d, c_requests (comps s5 d) = [] -> c_requests (comps s' d) = []) ->
      wp (ret true) (fun b s'0 => (b = false /\ s'0 = s /\ (c_status (comps s c) = Interrupted \/ grant s c = [])) \/
        (b = true /\ post D s s'0 /\ c_requests (comps s'0 c) = [] /\ c_status (comps s c) <> Interrupted /\ grant s c <> [])) (fun _ _ => True) s').
    { intros s' P' R'. apply wp_ret. right. split; [auto|]. split; [exact P'|]. split; [auto|]. split; [auto | congruence]. }
    apply wp_if; intros SW.
    - apply wp_setc. apply FIN.
      + assert (P6 : post (plusl D an) s (m_comp c (w_retry an) s5)).
        { eapply post_tame1; eauto; [apply tame_comp; auto | apply GI_comp; auto; apply (j_g _ (proj1 P5)) | apply (keepB_kb _ c); [apply kb_comp | right; rewrite comps_same; auto]]. }
        eapply post_weak; [|exact P6]. intros d r _ _ [|I]; auto. apply O. left. unfold an in I. apply filter_In in I. destruct I as (_ & I).
        unfold exc. rewrite I. apply andb_prop in SW. destruct SW as (SW & _). destruct P5 as (_ & _ & (_ & Y) & _). rewrite Y in SW. rewrite SW.
        apply orb_true_r.
      + intros d E. destruct (Nat.eq_dec d c) as [->|]; [rewrite comps_same; exact E | rewrite comps_diff; auto].
    - eapply wp_conseq; [apply (w_ran an D s s5); auto | |]; cbv beta; auto.
      + intros r I. unfold an in I. apply filter_In in I. tauto.
      + intros _ s6 (P6 & F6). apply FIN; auto. intros d E. destruct (proj1 (gql_path _ _ F6) d); congruence.
  Qed.
End Try.

(** the members from c on *)
Fixpoint sfx (c : nat) (l : list (nat * xq)) : list nat :=
  match l with [] => [] | (d, _) :: t => if Nat.eqb d c then d :: map fst t else sfx c t end.
Definition sfm (mx : option (nat * xq)) (l : list (nat * xq)) : list nat := match mx with Some (c, _) => sfx c l | None => [] end.
Lemma sfx_hd : forall l, sfm (hd_error l) l = map fst l.
Proof. intros [|(c, p) t]; cbn; auto. rewrite Nat.eqb_refl. auto. Qed.
Lemma sfx_in : forall c d l, In d (sfx c l) -> In d (map fst l).
Proof. induction l as [|(e, p) t IH]; cbn; auto. destruct (Nat.eqb e c); cbn; auto. Qed.
Lemma sfx_next : forall c l, NoDup (map fst l) -> In c (map fst l) -> sfx c l = c :: sfm (qnext c l) l.
Proof.
  induction l as [|(e, p) t IH]; cbn; intros N I; [destruct I|]. inversion N as [|? ? N1 N2]; subst. rewrite (Nat.eqb_sym c e).
  destruct (Nat.eqb_spec e c) as [->|D].
  - destruct t as [|(d, pd) t2]; cbn; auto. cbn in N1. destruct (Nat.eqb_spec c d); [subst; tauto|]. rewrite Nat.eqb_refl. auto.
  - destruct I as [|I]; [congruence|]. rewrite (IH N2 I). f_equal. unfold sfm. destruct (qnext c t) as [(d, pd)|] eqn:E; auto. cbn.
    destruct (Nat.eqb_spec e d) as [->|]; auto. exfalso. apply N1. clear - E. induction t as [|(a, b) t IH]; cbn in *; [discriminate|].
    destruct (Nat.eqb c a); [|right; auto]. destruct t; [discriminate|]. injection E as ->. right. left. auto.
Qed.
Lemma sfx_filter : forall c d f l, NoDup (map fst l) -> In c (map fst (filter f l)) -> In d (sfx c l) -> In d (map fst (filter f l)) -> In d (sfx c (filter f l)).
Proof.
  induction l as [|(e, p) t IH]; cbn; intros N Ic Id If; [destruct Ic|]. inversion N as [|? ? N1 N2]; subst.
  assert (SUB : forall x, In x (map fst (filter f t)) -> In x (map fst t)).
  { intros x I. apply in_map_iff in I. destruct I as (y & <- & I). apply filter_In in I. apply in_map. tauto. }
  destruct (Nat.eqb_spec e c) as [->|D].
  - destruct (f (c, p)); cbn in *.
    + rewrite Nat.eqb_refl. exact If.
    + exfalso. auto.
  - assert (Id2 : In d (map fst t)) by (eapply sfx_in; eauto).
    destruct (f (e, p)); cbn in *.
    + destruct (Nat.eqb_spec e c); [congruence|]. destruct Ic as [|Ic]; [congruence|]. destruct If as [->|If]; [exfalso; auto|]. apply IH; auto.
    + apply IH; auto.
Qed.
Lemma sfx_before : forall c d l, NoDup (map fst l) -> before d c l -> In d (sfx c l) -> False.
Proof.
  intros c d l N (l1 & l2 & -> & I1 & I2). rewrite map_app in N. induction l1 as [|(e, p) t IH]; cbn in *; [destruct I1|].
  inversion N as [|? ? N1 N2]; subst. assert (I2' : In c (map fst t ++ map fst l2)) by (apply in_or_app; auto).
  destruct (Nat.eqb_spec e c) as [->|D]; [contradiction|].
  intros I. destruct I1 as [->|I1]; [|auto].
  apply N1. rewrite <- map_app. eapply sfx_in; eauto.
Qed.
Definition plusm (D : nat -> nat -> Prop) (r : nat) (L : list nat) : nat -> nat -> Prop := fun c x => D c x \/ (x = r /\ In c L).
Lemma GI_req_mem : forall s c r, GI none s -> mem s (QReq r) c -> In r (keys (c_requests (comps s c))).
Proof. intros s c r G M. apply (gi_mem _ _ G (QReq r) c eq_refl) in M. destruct M as (M & _). exact M. Qed.
Lemma GI_single : forall s c r r' q, GI none s -> mem s (QReq r) c -> c_requests (comps s c) = [(r', q)] -> r' = r.
Proof. intros s c r r' q G M E. apply GI_req_mem in M; auto. rewrite E in M. destruct M as [|[]]; auto. Qed.

Section Loop.
  Context (rt : nat -> M unit).
  Context (Hrt : forall r D s, J s -> OKD D s -> r_anon (rsc s r) = true -> SS (plusr D r) s -> wp (rt r) (fun _ s' => post D s s') (fun _ _ => True) s).
  (** L is what is left to be tried *)
  Definition left_of (r : nat) (mx : option (nat * xq)) (L : list nat) (s : env) : Prop :=
    forall d, waitreq s d -> In r (keys (c_requests (comps s d))) -> In d L ->
      match mx with Some (c, _) => mem s (QReq r) c -> In d (sfx c (qs s (QReq r))) | None => False end.
  (* non-anonymous resources: one pass *)
  Lemma w_rloop_n : forall D s0 r first p1, OKD D s0 -> r_anon (rsc s0 r) = false -> (forall c, D c r -> exc s0 r = true) ->
    forall n mx L s, J s -> sm s0 s -> SS (plusm D r L) s -> left_of r mx L s ->
    wp (rloop (c_try rt) n r false first p1 mx) (fun _ s' => post D s s') (fun _ _ => True) s.
  Proof.
    intros D s0 r first p1 O0 AN ND. induction n as [|n IH]; intros mx L s JS SM S LO; cbn [rloop]; destruct mx as [(c, p)|].
    1: apply wp_raise; auto.
    1,3: apply wp_ret, post_refl; auto; eapply SS_weak; [|exact S]; intros d x W I [|(-> & X)]; [auto | destruct (LO d W I X)].
    pose proof (sm_OKD _ _ _ SM O0) as O. pose proof (j_g _ JS) as G.
    assert (EXC : exc s r = true -> post D s s).
    { intros E. apply post_refl; auto. eapply SS_weak; [|exact S]. intros d x _ _ [|(-> & _)]; auto. }
    apply wp_bind, wp_get. apply wp_if; intros B1.
    { apply wp_ret, EXC. apply andb_prop in B1. unfold exc. rewrite (proj1 B1). rewrite !orb_true_r. auto. }
    apply wp_if; intros B2.
    { apply wp_ret, EXC. apply andb_prop in B2. unfold exc. rewrite (proj1 B2). rewrite !orb_true_r. auto. }
    apply wp_if; intros B3.
    { apply wp_ret. destruct (exc s r) eqn:EX; auto. apply post_refl; auto. cbn [negb andb] in B3. apply xltb_iff in B3.
      assert (NC : forall d q, In (r, q) (c_requests (comps s d)) -> tr s r q -> can_one s d r q = false).
      { intros d q I T. rewrite can_plain by auto. unfold tr in T. rewrite (sm_anon _ _ _ SM), EX, AN in T. destruct T as [|[T|]]; try discriminate.
        assert (M : xle (r_minq (rsc s r)) (Fin q)) by (apply (j_m _ JS d r q); auto; rewrite (sm_anon _ _ _ SM); auto).
        unfold enough. replace (Qltb 0 q) with true by (symmetry; apply Qltb_iff; auto). apply negb_false_iff, xltb_iff.
        destruct (xaddq (avail (rsc s r)) eps), (r_minq (rsc s r)); cbn in *; try contradiction; lra. }
      intros d W. destruct (S d W) as (A & B). split; intros OO.
      - intros x q I C. destruct (A OO x q I C) as ([|(-> & _)] & T); [auto|]. rewrite (NC d q I T) in C. discriminate.
      - intros C. destruct (B OO C) as (x & q & I & [X|(-> & _)] & T); [eauto|]. specialize (C _ _ I). rewrite (NC d q I T) in C. discriminate. }
    apply wp_bind, wp_get. apply wp_if; intros INQ; [|apply wp_raise; auto]. apply inq_iff in INQ.
    pose proof (gi_nd _ _ G (QReq r)) as NDQ. pose proof (sfx_next c _ NDQ INQ) as SX.
    assert (S0 : SS (plusm D r (sfx c (qs s (QReq r)))) s).
    { eapply SS_weak; [|exact S]. intros d x W I [|(-> & X)]; [left; auto|]. right. split; [auto|]. apply (LO d W I X). exact INQ. }
    apply wp_bind. eapply wp_conseq; [apply (w_ct rt Hrt c (plusm D r (sfx c (qs s (QReq r)))) s); auto using SS_x | |]; cbv beta; auto.
    { intros x d H. left. apply O; auto. }
    { intros GR. apply (fair_intro (plusm D r (sfx c (qs s (QReq r))))); auto using SS_x. intros d x q E1 EX _ BF [X|(-> & I)].
      - assert (x = r) by (eapply GI_single; eauto). subst x. rewrite <- (sm_exc _ _ _ SM) in ND. rewrite (ND _ X) in EX. discriminate.
      - eapply sfx_before; eauto. }
    intros b s1 H. apply wp_bind, wp_get. cbn [andb].
    destruct H as [(-> & -> & NG)|(-> & P1 & R1 & _)].
    - apply IH with (L := sfm (qnext c (qs s (QReq r))) (qs s (QReq r))); auto.
      + intros d W. destruct (Nat.eq_dec d c) as [->|N].
        * apply not_granted; [|apply W]. destruct NG as [NG|]; auto. destruct W as (W & _). congruence.
        * apply (blocked_weak (plusm D r (sfx c (qs s (QReq r))))); [|exact (S0 d W)]. intros x [|(-> & I)]; [left; auto|]. right. split; auto.
          rewrite SX in I. destruct I as [|I]; [congruence | auto].
      + intros d W I X. unfold sfm in X. destruct (qnext c (qs s (QReq r))) as [(e, pe)|]; [auto | destruct X].
    - pose proof P1 as (J1 & S1 & SM1 & F1). destruct (gql_path _ _ F1) as (RQ & FQ). destruct (FQ r) as (f & EQ).
      eapply wp_conseq; [apply (IH (qnext c (qs s (QReq r))) (sfx c (qs s (QReq r))) s1); auto; [eapply sm_trans; eauto|] | |]; cbv beta; auto.
      2: intros _ s2 P2; eapply post_trans; eauto.
      intros d (W1 & W) I X. rewrite SX in X. destruct X as [<-|X]; [congruence|]. unfold sfm in X.
      destruct (qnext c (qs s (QReq r))) as [(e, pe)|]; [|destruct X]. intros ME. rewrite EQ.
      apply sfx_filter; auto; [rewrite <- EQ; auto|]. rewrite <- EQ. apply GI_mem_req; auto. apply J1.
  Qed.
  (* anonymous resources: from the start again after each honored request *)
  Lemma w_rloop_a : forall D s0 r first p1, OKD (plusr D r) s0 -> (forall x c, exc s0 x = true -> D c x) -> r_anon (rsc s0 r) = true ->
    forall n mx L s, J s -> sm s0 s -> SS (plusm D r L) s -> left_of r mx L s ->
    wp (rloop (c_try rt) n r true first p1 mx) (fun _ s' => post D s s') (fun _ _ => True) s.
  Proof.
    intros D s0 r first p1 O0 E0 AN. induction n as [|n IH]; intros mx L s JS SM S LO; cbn [rloop]; destruct mx as [(c, p)|].
    1: apply wp_raise; auto.
    1,3: apply wp_ret, post_refl; auto; eapply SS_weak; [|exact S]; intros d x W I [|(-> & X)]; [auto | destruct (LO d W I X)].
    pose proof (sm_OKD _ _ _ SM O0) as O. pose proof (j_g _ JS) as G.
    assert (EXC : exc s r = true -> post D s s).
    { intros E. apply post_refl; auto. eapply SS_weak; [|exact S]. rewrite (sm_exc _ _ _ SM) in E. intros d x _ _ [|(-> & _)]; auto. }
    apply wp_bind, wp_get. apply wp_if; intros B1.
    { apply wp_ret, EXC. apply andb_prop in B1. unfold exc. rewrite (proj1 B1). rewrite !orb_true_r. auto. }
    apply wp_if; intros B2.
    { apply wp_ret, EXC. apply andb_prop in B2. unfold exc. rewrite (proj1 B2). rewrite !orb_true_r. auto. }
    cbn [negb andb]. apply wp_bind, wp_get. apply wp_if; intros INQ; [|apply wp_raise; auto]. apply inq_iff in INQ.
    pose proof (gi_nd _ _ G (QReq r)) as NDQ. pose proof (sfx_next c _ NDQ INQ) as SX.
    assert (S0 : SS (plusm D r (sfx c (qs s (QReq r)))) s).
    { eapply SS_weak; [|exact S]. intros d x W I [|(-> & X)]; [left; auto|]. right. split; [auto|]. apply (LO d W I X). exact INQ. }
    apply wp_bind. eapply wp_conseq; [apply (w_ct rt Hrt c (plusr D r) s); auto | |]; cbv beta; auto.
    { apply SS_x. eapply SS_weak; [|exact S]. intros d x _ _ [|(-> & _)]; [left | right]; auto. }
    { intros GR d x q q' E1 _ _ _ _ N. assert (x = r) by (eapply GI_single; eauto). subst x. rewrite (sm_anon _ _ _ SM) in N. congruence. }
    intros b s1 H. apply wp_bind, wp_get.
    destruct H as [(-> & -> & NG)|(-> & P1 & R1 & _)].
    - replace (inq c (qs s (QReq r))) with true by (symmetry; apply inq_iff; auto). cbn [negb].
      apply IH with (L := sfm (qnext c (qs s (QReq r))) (qs s (QReq r))); auto.
      + intros d W. destruct (Nat.eq_dec d c) as [->|N].
        * apply not_granted; [|apply W]. destruct NG as [NG|]; auto. destruct W as (W & _). congruence.
        * apply (blocked_weak (plusm D r (sfx c (qs s (QReq r))))); [|exact (S0 d W)]. intros x [|(-> & I)]; [left; auto|]. right. split; auto.
          rewrite SX in I. destruct I as [|I]; [congruence | auto].
      + intros d W I X. unfold sfm in X. destruct (qnext c (qs s (QReq r))) as [(e, pe)|]; [auto | destruct X].
    - pose proof P1 as (J1 & S1 & SM1 & F1).
      assert (NI : inq c (qs s1 (QReq r)) = false).
      { destruct (inq c (qs s1 (QReq r))) eqn:E; auto. apply inq_iff in E. apply (GI_req_mem s1) in E; [|apply J1]. rewrite R1 in E. destruct E. }
      rewrite NI. cbn [negb].
      eapply wp_conseq; [apply (IH (hd_error (qs s1 (QReq r))) (map fst (qs s1 (QReq r))) s1); auto; [eapply sm_trans; eauto | |] | |]; cbv beta; auto.
      3: intros _ s2 P2; eapply post_trans; eauto.
      + eapply SS_weak; [|exact S1]. intros d x W I [ | ->]; [left; auto|]. right. split; auto. apply GI_mem_req; auto. apply J1.
      + intros d W I X. pose proof (sfx_hd (qs s1 (QReq r))) as HD. unfold sfm in HD. destruct (hd_error (qs s1 (QReq r))) as [(e, pe)|].
        * intros _. rewrite HD. auto.
        * rewrite <- HD in X. destruct X.
  Qed.
End Loop.
Lemma kind_exc : forall s s' x, yl s' = yl s -> kind (rsc s' x) = kind (rsc s x) -> exc s' x = exc s x.
Proof. intros s s' x Y K. unfold exc. injection K as K1 K2 K3 K4. congruence. Qed.
Lemma kind_allowed : forall R R' l c, kind R = kind R' -> allowed R l c = allowed R' l c.
Proof. intros R R' l c K. unfold allowed. injection K as K1 K2 K3 K4. congruence. Qed.
Definition Pre (r : nat) (D : nat -> nat -> Prop) (s : env) : Prop :=
  J s /\ OKD D s /\ SS (plusr D r) s /\ (r_anon (rsc s r) = false -> forall c, D c r -> exc s r = true).
Lemma w_r_try : forall n r D s, Pre r D s -> wp (r_try n r) (fun _ s' => post D s s') (fun _ _ => True) s.
Proof.
  induction n as [|n IH]; intros r D s (JS & O & S & ND); cbn [r_try]; [apply wp_raise; auto|].
  assert (Hrt : forall r D s, J s -> OKD D s -> r_anon (rsc s r) = true -> SS (plusr D r) s -> wp (r_try n r) (fun _ s' => post D s s') (fun _ _ => True) s).
  { intros r' D' s' A B C E. apply IH. split; [auto|]. split; [auto|]. split; [auto|]. intros; congruence. }
  assert (IN : forall s L, SS (plusr D r) s -> GI none s -> L = map fst (qs s (QReq r)) -> SS (plusm D r L) s).
  { intros z L SZ GZ ->. eapply SS_weak; [|exact SZ]. intros d x W I [ | ->]; [left; auto|]. right. split; auto. apply GI_mem_req; auto. }
  assert (LO : forall s, left_of r (hd_error (qs s (QReq r))) (map fst (qs s (QReq r))) s).
  { intros z d W I X. pose proof (sfx_hd (qs z (QReq r))) as HD. unfold sfm in HD. destruct (hd_error (qs z (QReq r))) as [(e, pe)|].
    - intros _. rewrite HD. auto.
    - rewrite <- HD in X. destruct X. }
  apply wp_bind, wp_get, wp_bind, wp_get. destruct (r_anon (rsc s r)) eqn:AN.
  - apply wp_bind, wp_get. apply wp_if; intros TR.
    { apply wp_ret, post_refl; auto. eapply SS_weak; [|exact S]. intros d x _ _ [ | ->]; auto. }
    apply wp_bind, wp_setr, wp_bind. set (s1 := m_rsc r (w_trying true) s).
    assert (R1 : forall x, rsc s1 x = if Nat.eqb x r then w_trying true (rsc s r) else rsc s x) by (intros; reflexivity).
    assert (PL : forall x, plain (rsc s1 x) = plain (rsc s x)) by (intros x; rewrite R1; destruct (Nat.eqb_spec x r) as [->|]; reflexivity).
    assert (KD : forall x, kind (rsc s1 x) = kind (rsc s x)) by (intros x; apply plain_kind; auto).
    assert (EX : forall x, exc s1 x = exc s x).
    { intros x. apply kind_exc; auto. }
    assert (G1 : GI none s1) by (eapply GI_same; [| |apply (j_g _ JS)]; reflexivity).
    assert (Q1 : quiet None s s1) by (apply quiet_rsc; reflexivity).
    assert (J1 : J s1).
    { constructor; auto; [apply (AM_step (LQuiet None) s s1); auto; apply JS|]. intros c x q I N. rewrite R1 in *.
      destruct (Nat.eqb_spec x r) as [->|]; apply (j_m _ JS c); auto. }
    assert (CAN : forall c x q, can_one s1 c x q = can_one s c x q).
    { intros c x q. unfold can_one. rewrite (enough_plain _ _ q (PL x)). rewrite (kind_allowed _ _ _ c (KD x)). reflexivity. }
    assert (TRQ : forall x q, tr s1 x q <-> tr s x q).
    { intros x q. unfold tr. rewrite EX. rewrite (kind_anon _ _ (KD x)). tauto. }
    assert (S1 : SS (plusr D r) s1).
    { intros c W. destruct (S c W) as (A & B). split; intros OO.
      - intros x q I C. rewrite CAN in C. rewrite TRQ. apply (A OO x q I C).
      - intros C. destruct (B OO) as (x & q & I & X & Y); [intros x q I; rewrite <- CAN; auto|]. exists x, q. rewrite TRQ. auto. }
    assert (O1 : OKD (plusr D r) s1).
    { intros x c [E|E]; [left; apply O; left; rewrite <- EX; auto|]. rewrite R1 in E. destruct (Nat.eqb_spec x r) as [->|]; [right; auto | left; apply O; auto]. }
    assert (E1 : forall x c, exc s1 x = true -> D c x) by (intros x c E; apply O; left; rewrite <- EX; auto).
    assert (AN1 : r_anon (rsc s1 r) = true) by (rewrite (kind_anon _ _ (KD r)); auto).
    eapply wp_conseq; [apply (w_rloop_a (r_try n) Hrt D s1 r _ _ O1 E1 AN1 n _ (map fst (qs s (QReq r))) s1); auto using sm_refl | |]; cbv beta; auto.
    { apply (LO s1). }
    intros _ s2 (J2 & S2 & SM2 & F2). apply wp_setr. set (s3 := m_rsc r (w_trying false) s2).
    assert (R3 : forall x, rsc s3 x = if Nat.eqb x r then w_trying false (rsc s2 r) else rsc s2 x) by (intros; reflexivity).
    assert (PL3 : forall x, plain (rsc s3 x) = plain (rsc s2 x)) by (intros x; rewrite R3; destruct (Nat.eqb_spec x r) as [->|]; reflexivity).
    assert (KD3 : forall x, kind (rsc s3 x) = kind (rsc s2 x)) by (intros x; apply plain_kind; auto).
    assert (EX3 : forall x, exc s3 x = exc s2 x).
    { intros x. apply kind_exc; auto. }
    assert (G3 : GI none s3) by (eapply GI_same; [| |apply (j_g _ J2)]; reflexivity).
    assert (Q3 : quiet None s2 s3) by (apply quiet_rsc; reflexivity).
    split; [|split; [|split]].
    + constructor; auto; [apply (AM_step (LQuiet None) s2 s3); auto; apply J2|]. intros c x q I N. rewrite R3 in *.
      destruct (Nat.eqb_spec x r) as [->|]; apply (j_m _ J2 c); auto.
    + assert (CAN3 : forall c x q, can_one s3 c x q = can_one s2 c x q).
      { intros c x q. unfold can_one. rewrite (enough_plain _ _ q (PL3 x)). rewrite (kind_allowed _ _ _ c (KD3 x)). reflexivity. }
      intros c W. destruct (S2 c W) as (A & B). split; intros OO.
      * intros x q I C. rewrite CAN3 in C. destruct (A OO x q I C). split; auto. unfold tr in *. rewrite EX3, (kind_anon _ _ (KD3 x)). auto.
      * intros C. destruct (B OO) as (x & q & I & X & Y); [intros x q I; rewrite <- CAN3; auto|]. exists x, q. unfold tr in *. rewrite EX3, (kind_anon _ _ (KD3 x)). auto.
    + destruct SM2 as (K2 & Y2). split; [|exact Y2]. intros x. destruct (K2 x) as (K & T). split; [rewrite KD3, K, KD; auto|].
      rewrite R3. rewrite R1 in T. destruct (Nat.eqb_spec x r) as [->|]; [cbn; auto | auto].
    + eapply fpath_trans; [apply (fpath_quiet gql s s1); auto; [exact Logic.I | apply JS | apply keepB_same; reflexivity]|]. eapply fpath_trans; [exact F2|].
      apply fpath_quiet; auto; [exact Logic.I | apply J2 | apply keepB_same; reflexivity].
  - apply (w_rloop_n (r_try n) Hrt D s r _ _ O AN (ND eq_refl) n _ (map fst (qs s (QReq r))) s); auto using sm_refl.
    apply IN; auto. apply JS.
Qed.
End Fair.
