(** C77: components wait in line by priority, then in order of arrival. *)
From Coq Require Import QArith Lqa List Bool Arith ZArith Lia.
From Verif Require Import Base Kernel Wp KernelT KernelX KernelU KernelR KernelA KernelC KernelE KernelL KernelQ KernelP KernelW KernelY KernelM PropSched PropRes PropReq PropWake PropState PropCalls.
Import ListNotations.
Open Scope Q_scope.

(** the requesters and claimers of a resource, the waiters of a state, those who wait to get something from or to put something in a store *)
Definition a_line (q : qref) : Prop := forall k, q <> QStore k.
Definition Rord (s s' : env) : Prop := forall q, a_line q -> ordered (qs s q) -> ordered (qs s' q).
Lemma Rord_po : preorder Rord. Proof. constructor; unfold Rord; auto. Qed.
Lemma Rord_same : forall s s', qs s' = qs s -> Rord s s'. Proof. intros s s' E q _ O. rewrite E. auto. Qed.
Lemma Rord_q : forall q f s, (forall l, ordered l -> ordered (f l)) -> Rord s (m_q q f s).
Proof. intros q f s H q' _ O. rewrite qs_m_q. destruct (qeqb q' q) eqn:E; auto. apply qeqb_iff in E. subst. auto. Qed.
Lemma ord_exec : forall n o, frames Rord (exec n o).
Proof.
  intros n o.
  apply (l_exec Rord Rord_po) with (me := fun _ => True); auto; try (intros; apply Rord_same; reflexivity).
  - intros. apply Rord_q. intros. apply ordered_ins; auto.
  - intros. apply Rord_q. intros. apply ordered_ins; auto.
  - intros. apply Rord_q. intros. apply ordered_filter; auto.
  - intros k c w s q L O. rewrite qs_m_q. destruct (qeqb q (QStore k)) eqn:E; auto. apply qeqb_iff in E. subst. exfalso. apply (L k); auto.
  - intros c. unfold remove. fgo Rord_po; apply Rord_same; reflexivity.
  - intros. unfold reschedule, push. fgo Rord_po; apply Rord_same; reflexivity.
Qed.
(** every line is always in order of priority, whatever calls are made and whatever their outcomes *)
Theorem C77_ordered : forall s, started s -> forall q, a_line q -> ordered (qs s q).
Proof.
  intros s (t0 & R & sv & kc & hp & y & d & C) q L. remember (init t0 R sv kc hp y d) as i. induction C as [|s s1 n o r s2 C IH E].
  - subst. cbn. exact Logic.I.
  - pose proof (ord_exec n o s1) as F. rewrite E in F. apply F; auto.
Qed.

(** ** who is in line, stays behind who was in front of it *)
(** the places of the others *)
Definition others (c : nat) (l : list (nat * xq)) : list (nat * xq) := filter (fun x => negb (Nat.eqb (fst x) c)) l.
(** [part_of l k]: l is k with some left out *)
Inductive part_of {A} : list A -> list A -> Prop :=
| po_nil : part_of [] []
| po_take : forall x l k, part_of l k -> part_of (x :: l) (x :: k)
| po_drop : forall x l k, part_of l k -> part_of l (x :: k).
Lemma part_refl : forall A (l : list A), part_of l l. Proof. induction l; constructor; auto. Qed.
Lemma part_trans : forall A (l k m : list A), part_of l k -> part_of k m -> part_of l m.
Proof.
  intros A l k m H K. revert l H. induction K; intros l0 H; auto.
  - inversion H; subst; constructor; auto.
  - constructor; auto.
Qed.
Lemma part_filter : forall A f (l k : list A), part_of l k -> part_of (filter f l) (filter f k).
Proof. induction 1; cbn; try constructor; try (destruct (f x)); try constructor; auto. Qed.
Lemma part_filter_self : forall A f (l : list A), part_of (filter f l) l.
Proof. induction l as [|a l IH]; cbn; [constructor|]. destruct (f a); constructor; auto. Qed.
Definition Rpart (c : nat) (s s' : env) : Prop := forall q, in_line q = true -> part_of (others c (qs s' q)) (others c (qs s q)).
Lemma Rpart_po : forall c, preorder (Rpart c).
Proof. intros c. constructor; unfold Rpart; [intros; apply part_refl | intros; eapply part_trans; eauto]. Qed.
Lemma Rpart_same : forall c s s', qs s' = qs s -> Rpart c s s'. Proof. intros c s s' E q _. rewrite E. apply part_refl. Qed.
Lemma Rpart_q : forall c q f s, (in_line q = true -> forall l, part_of (others c (f l)) (others c l)) -> Rpart c s (m_q q f s).
Proof. intros c q f s H q' L. rewrite qs_m_q. destruct (qeqb q' q) eqn:E; [|apply part_refl]. apply qeqb_iff in E. subst. auto. Qed.
Lemma others_ins : forall c p l, others c (ins_sorted c p l) = others c l.
Proof.
  assert (T : forall c p l, others c (ins_tail c p l) = others c l).
  { induction l as [|y t IH]; cbn [ins_tail]; [cbn; rewrite Nat.eqb_refl; auto|]. destruct (forallb _ _); cbn; [rewrite Nat.eqb_refl; auto|]. unfold others in IH. rewrite IH. auto. }
  intros c p l. unfold ins_sorted. destruct l as [|y t]; [cbn; rewrite Nat.eqb_refl; auto|]. destruct (xltb p (snd y)); auto. cbn. rewrite Nat.eqb_refl. auto.
Qed.
Lemma part_exec : forall n o c, (forall x, joins o x -> x = c) -> frames (Rpart c) (exec n o).
Proof.
  intros n o c J. apply (l_exec (Rpart c) (Rpart_po c)) with (me := fun x => x = c); auto; try (intros; apply Rpart_same; reflexivity).
  - intros q x p s -> L _. apply Rpart_q. intros _ l. rewrite others_ins. apply part_refl.
  - intros. apply Rpart_q. discriminate.
  - intros. apply Rpart_q. intros _ l. apply part_filter, part_filter_self.
  - intros. apply Rpart_q. discriminate.
  - intros x. unfold remove. fgo (Rpart_po c); apply Rpart_same; reflexivity.
  - intros. unfold reschedule, push. fgo (Rpart_po c); apply Rpart_same; reflexivity.
Qed.
(** a call makes nobody but the component it is called for join a line; of the others some leave, those who stay are in the same order, with the same
    priorities *)
Theorem C77_nobody_overtakes : forall n o s s' r c, exec n o s = (s', r) -> (forall x, joins o x -> x = c) ->
  forall q, in_line q = true -> part_of (others c (qs s' q)) (others c (qs s q)).
Proof. intros n o s s' r c E J. pose proof (part_exec n o c J s) as F. rewrite E in F. exact F. Qed.
(** without request, wait, wait_for, from_store, to_store nobody joins *)
Theorem C77_nobody_joins : forall n o s s' r, exec n o s = (s', r) -> (forall x, ~ joins o x) ->
  forall q x, in_line q = true -> In x (map fst (qs s' q)) -> In x (map fst (qs s q)).
Proof.
  intros n o s s' r E J q x L I. apply in_map_iff in I. destruct I as ((y & p) & E1 & I). cbn in E1. subst y.
  pose proof (C77_nobody_overtakes n o s s' r (S x) E (fun z H => False_ind _ (J z H)) q L) as P.
  assert (A : forall A (l k : list A) z, part_of l k -> In z l -> In z k) by (clear; induction 1; cbn; intuition).
  assert (I1 : In (x, p) (others (S x) (qs s' q))). { apply filter_In. split; auto. cbn. destruct (Nat.eqb_spec x (S x)); [lia | auto]. }
  apply (A _ _ _ _ P) in I1. apply filter_In in I1. apply in_map_iff. exists (x, p). tauto.
Qed.

(** ** a newcomer takes its place behind everybody with the same or a smaller priority value and in front of everybody with a larger one *)
Definition placed (c : nat) (p : xq) (l l' : list (nat * xq)) : Prop :=
  exists l1 l2, l = l1 ++ l2 /\ l' = l1 ++ (c, p) :: l2 /\ (forall d p', In (d, p') l1 -> xle p' p) /\ (forall d p', In (d, p') l2 -> xlt p p').
Lemma inq_ins : forall c p l, inq c (ins_sorted c p l) = true.
Proof. intros. apply inq_iff, in_ins_sorted. auto. Qed.
Lemma w_enters : forall A (Qf : A -> qref) c p (m : A -> M unit), (forall x s, qs (fst (m x s)) = qs s) -> forall l s,
  wp (mfor l (fun x => m x ;;; q_enter (Qf x) c p))
     (fun _ s' => (forall x, In x l -> inq c (qs s (Qf x)) = false /\ qs s' (Qf x) = ins_sorted c p (qs s (Qf x))) /\
                  (forall q, (forall x, In x l -> q <> Qf x) -> qs s' q = qs s q)) (fun _ _ => True) s.
Proof.
  intros A Qf c p m G. induction l as [|x l IH]; intros s; cbn [mfor]; [apply wp_ret; split; [intros y []|auto]|].
  apply wp_bind, wp_bind. unfold wp. pose proof (G x s) as Gx. destruct (m x s) as [s0 [a|e]]; auto. cbn [fst] in Gx.
  fold (wp (q_enter (Qf x) c p) (fun _ s' => wp (mfor l (fun x => m x ;;; q_enter (Qf x) c p)) (fun _ s'' => (forall y, In y (x :: l) -> inq c (qs s (Qf y)) = false /\
     qs s'' (Qf y) = ins_sorted c p (qs s (Qf y))) /\ (forall q, (forall y, In y (x :: l) -> q <> Qf y) -> qs s'' q = qs s q)) (fun _ _ => True) s') (fun _ _ => True) s0).
  unfold q_enter at 1. apply wp_bind, wp_get. rewrite Gx. destruct (inq c (qs s (Qf x))) eqn:E; [apply wp_raise; auto|]. apply wp_put.
  set (s1 := m_q _ _ _). assert (Q1 : forall q, qs s1 q = if qeqb q (Qf x) then ins_sorted c p (qs s (Qf x)) else qs s q).
  { intros. unfold s1. rewrite qs_m_q, Gx. reflexivity. }
  eapply wp_conseq; [apply (IH s1) | cbv beta | auto]. intros _ s2 (B1 & B2).
  assert (N : forall y, In y l -> qeqb (Qf y) (Qf x) = false).
  { intros y I. destruct (B1 y I) as (F & _). rewrite Q1 in F. destruct (qeqb (Qf y) (Qf x)); auto. rewrite inq_ins in F. discriminate. }
  split.
  - intros y [<-|I].
    + split; auto. rewrite B2; [rewrite Q1, qeqb_refl; auto|]. intros z I H. specialize (N z I). rewrite <- H, qeqb_refl in N. discriminate.
    + destruct (B1 y I) as (F1 & F2). rewrite Q1, (N y I) in F1, F2. auto.
  - intros q H. rewrite B2 by (intros; apply H; right; auto). rewrite Q1. destruct (qeqb q (Qf x)) eqn:X; auto. apply qeqb_iff in X. exfalso. apply (H x); auto. left; auto.
Qed.
Lemma qs_reschedule : forall c t p u cap s, qs (fst (reschedule c t p u cap s)) = qs s.
Proof. intros. apply (tl_qs c s). apply (tl_reschedule c t p u cap s). Qed.
Lemma qs_setc : forall c f s, qs (m_comp c f s) = qs s. Proof. reflexivity. Qed.
Lemma w_resched_qs : forall c t p u cap s, wp (reschedule c t p u cap) (fun _ s' => qs s' = qs s) (fun _ _ => True) s.
Proof. intros. unfold wp. pose proof (qs_reschedule c t p u cap s) as H. destruct (reschedule c t p u cap s) as [s' [a|e]]; auto. Qed.
Lemma w_fail_time : forall f s, wp (fail_time f) (fun _ s' => s' = s) (fun _ _ => True) s.
Proof. intros f s. unfold fail_time. destruct f; [apply wp_ret | apply wp_get | apply wp_get | apply wp_raise]; auto. Qed.
(** the last part of wait and wait_for: whoever has to wait has not left the lines *)
Lemma w_tail_line : forall c t p u cap s, c_waits (comps s c) <> [] ->
  wp (c_trywait c ;;; ws' <- get (fun s => c_waits (comps s c)) ;; when (nonnil ws') (setc c (w_status Waiting) ;;; reschedule c t p u cap))
    (fun _ s' => c_status (comps s' c) = Waiting -> qs s' = qs s) (fun _ _ => True) s.
Proof.
  intros c t p u cap s N. apply wp_bind. eapply wp_conseq; [apply c_trywait_full | cbv beta | auto]. intros b s1 [(-> & A & ->)|(-> & A & W & S & T & O)]; apply wp_bind, wp_get.
  - rewrite (proj2 (nonnil_true _ _) N). cbn [when]. apply wp_bind, wp_setc. eapply wp_conseq; [apply w_resched_qs | cbv beta | auto]. intros _ s2 -> _. reflexivity.
  - rewrite W. cbn [nonnil when]. apply wp_ret. congruence.
Qed.
Lemma line_wait_for : forall c cond states fail p u cap s, c_status (comps s c) = Current ->
  wp (wait_for c cond states fail p u cap) (fun _ s' => c_status (comps s' c) = Waiting ->
    forall st, In st states -> qs s' (QWait st) = ins_sorted c p (qs s (QWait st))) (fun _ _ => True) s.
Proof.
  intros c cond states fail p u cap s C. unfold wait_for. apply wp_bind, wp_stat. rewrite C. cbn [steqb negb when]. apply wp_bind, wp_ret, wp_bind, wp_setc, wp_bind.
  eapply wp_conseq; [apply w_fail_time | cbv beta | auto]. intros t ? ->. apply wp_bind, wp_setc, wp_bind.
  eapply wp_conseq; [apply (w_enters nat QWait c p (fun st' => setc c (fun x => w_waits (c_waits x ++ [(st', fun _ => true)]) x))); reflexivity | cbv beta | auto].
  intros _ s1 (Q1 & _). apply wp_bind, wp_get, wp_bind, wp_when; intros NN; [apply wp_raise; auto|]. apply negb_false_iff, nonnil_true in NN. apply wp_bind, wp_get, wp_bind, wp_setc.
  eapply wp_conseq; [apply w_tail_line; rewrite comps_same; exact NN | cbv beta | auto]. intros _ s2 H W st I. rewrite (H W). apply (Q1 st I).
Qed.
(** the priority with which a state is listed in wait; a state that is listed more than once counts for its first occurrence *)
Fixpoint listed (st : nat) (args : list (nat * (Z -> bool) * xq)) : option xq :=
  match args with [] => None | (x, _, p) :: t => if Nat.eqb x st then Some p else listed st t end.
Lemma w_waits : forall c args s, wp (mfor args (wait1 c))
  (fun _ s' => forall st, if memb st (map fst (c_waits (comps s c))) then qs s' (QWait st) = qs s (QWait st)
     else match listed st args with Some p => qs s' (QWait st) = ins_sorted c p (qs s (QWait st)) | None => qs s' (QWait st) = qs s (QWait st) end) (fun _ _ => True) s.
Proof.
  intros c. induction args as [|((x, f), p) l IH]; intros s; cbn [mfor]; [apply wp_ret; intros; destruct (memb _ _); reflexivity|].
  apply wp_bind. unfold wait1 at 1. apply wp_bind, wp_get, wp_bind. set (ws := map fst (c_waits (comps s c))).
  assert (K : forall s1, comps s1 = comps s -> (forall st, qs s1 (QWait st) = if negb (memb x ws) && Nat.eqb x st then ins_sorted c p (qs s (QWait st)) else qs s (QWait st)) ->
    wp (setc c (fun z => w_waits (c_waits z ++ [(x, f)]) z)) (fun _ s' => wp (mfor l (wait1 c)) (fun _ s'' => forall st, if memb st ws then qs s'' (QWait st) = qs s (QWait st)
      else match listed st ((x, f, p) :: l) with Some p => qs s'' (QWait st) = ins_sorted c p (qs s (QWait st)) | None => qs s'' (QWait st) = qs s (QWait st) end)
      (fun _ _ => True) s') (fun _ _ => True) s1).
  { intros s1 E1 E2. apply wp_setc. eapply wp_conseq; [apply IH | cbv beta | auto]. intros _ s2 H st. specialize (H st). rewrite comps_same in H. cbn [c_waits w_waits] in H.
    rewrite E1, map_app in H. fold ws in H. cbn [map fst] in H. change (qs (m_comp c (fun z => w_waits (c_waits z ++ [(x, f)]) z) s1)) with (qs s1) in H. rewrite E2 in H. cbn [listed].
    assert (ME : memb st (ws ++ [x]) = memb st ws || Nat.eqb x st).
    { clear. apply eq_true_iff_eq. rewrite orb_true_iff, !memb_iff, in_app_iff, Nat.eqb_eq. cbn. intuition. }
    rewrite ME in H. destruct (memb st ws) eqn:M1.
    - cbn [orb] in H. rewrite H. destruct (Nat.eqb_spec x st) as [->|]; [rewrite M1 | rewrite andb_false_r]; auto.
    - cbn [orb] in H. destruct (Nat.eqb_spec x st) as [->|]; [rewrite M1 in H; exact H | rewrite andb_false_r in H; exact H]. }
  destruct (memb x ws) eqn:M; cbn [negb when].
  - apply wp_ret. apply (K s); auto.
  - unfold q_enter. apply wp_bind, wp_get. apply wp_if; intros _; [apply wp_raise; auto|]. apply wp_put. apply K; auto. intros st. rewrite qs_m_q. cbn [negb andb].
    destruct (Nat.eqb_spec x st) as [->|N]; [rewrite qeqb_refl; auto|]. destruct (qeqb (QWait st) (QWait x)) eqn:E; auto. apply qeqb_iff in E. congruence.
Qed.
Lemma line_wait : forall c args all fail p u cap s, c_status (comps s c) = Current -> c_waits (comps s c) = [] ->
  wp (wait c args all fail p u cap) (fun _ s' => c_status (comps s' c) = Waiting ->
    forall st p', listed st args = Some p' -> qs s' (QWait st) = ins_sorted c p' (qs s (QWait st))) (fun _ _ => True) s.
Proof.
  intros c args all fail p u cap s C W. unfold wait. apply wp_bind, wp_setc, wp_bind, wp_stat. rewrite comps_same. cbn [c_status w_cond]. rewrite C. cbn [steqb negb when].
  apply wp_bind, wp_ret, wp_bind, wp_setc, wp_bind, wp_setc, wp_bind.
  eapply wp_conseq; [apply w_fail_time | cbv beta | auto]. intros t ? ->. apply wp_bind.
  eapply wp_conseq; [apply w_waits | cbv beta | auto]. rewrite !comps_same. cbn [c_waits w_failed w_wall w_cond]. rewrite W. cbn [map memb existsb].
  intros _ s1 Q1. apply wp_bind, wp_get, wp_bind, wp_when; intros NN; [apply wp_raise; auto|]. apply negb_false_iff, nonnil_true in NN. apply wp_bind, wp_get, wp_bind, wp_setc.
  eapply wp_conseq; [apply w_tail_line; rewrite comps_same; exact NN | cbv beta | auto]. intros _ s2 H X st p' L. rewrite (H X). specialize (Q1 st). rewrite L in Q1. exact Q1.
Qed.
Lemma line_from_store : forall n c ks f key rp fl fp u cap s, c_status (comps s c) = Current ->
  wp (from_store n c ks f key rp fl fp u cap) (fun _ s' => c_status (comps s' c) = Requesting ->
    forall k, In k ks -> qs s' (QFrom k) = ins_sorted c rp (qs s (QFrom k))) (fun _ _ => True) s.
Proof.
  intros n c ks f key rp fl fp u cap s C. unfold from_store. apply wp_bind, wp_when; intros _; [apply wp_raise; auto|].
  apply wp_bind, wp_stat. rewrite C. cbn [steqb negb when]. apply wp_bind, wp_ret, wp_bind.
  eapply wp_conseq; [apply w_fail_time | cbv beta | auto]. intros t ? ->. apply wp_bind, wp_setc, wp_bind, wp_get. destruct (find_item _ _ _ _ _ _) as [[i|] k].
  - apply wp_bind. eapply wp_conseq with (X := fun _ _ => True); [apply wp_true | cbv beta | auto]. intros _ s1 _. apply wp_bind, wp_setc, wp_bind.
    eapply wp_conseq with (X := fun _ _ => True); [apply wp_true | cbv beta | auto]. intros _ s2 _. apply wp_bind, wp_setc, wp_bind, wp_get.
    eapply wp_conseq; [apply w_reschedule | cbv beta | auto]. intros _ s3 (_ & _ & _ & S & _). rewrite S, comps_same. discriminate.
  - apply wp_bind, wp_setc, wp_bind. eapply wp_conseq; [apply (w_enters nat QFrom c rp (fun _ => ret tt)); reflexivity | cbv beta | auto].
    intros _ s1 (Q1 & _). apply wp_bind, wp_setc, wp_bind, wp_setc, wp_bind, wp_setc. eapply wp_conseq; [apply w_resched_qs | cbv beta | auto].
    intros _ s2 -> _ k0 I. apply (Q1 k0 I).
Qed.
Lemma w_to_try : forall n c i p ks s, wp (to_try n c i p ks) (fun b s' => if b then c_status (comps s' c) = Scheduled else s' = s) (fun _ _ => True) s.
Proof.
  intros n c i p. induction ks as [|k ks IH]; intros s; cbn [to_try]; [apply wp_ret; auto|]. apply wp_bind, wp_get. apply wp_if; intros _; [|apply IH].
  apply wp_bind. eapply wp_conseq with (X := fun _ _ => True); [apply wp_true | cbv beta | auto]. intros _ s1 _. apply wp_bind, wp_setc, wp_bind, wp_setc, wp_bind.
  eapply wp_conseq with (X := fun _ _ => True); [apply wp_true | cbv beta | auto]. intros _ s2 _. apply wp_bind, wp_setc, wp_bind, wp_get, wp_bind.
  eapply wp_conseq; [apply w_reschedule | cbv beta | auto]. intros _ s3 (_ & _ & _ & S & _). apply wp_ret. rewrite S, comps_same. reflexivity.
Qed.
Lemma line_to_store : forall n c ks i rp p fl fp u cap s, c_status (comps s c) = Current ->
  wp (to_store n c ks i rp p fl fp u cap) (fun _ s' => c_status (comps s' c) = Requesting ->
    forall k, In k ks -> qs s' (QTo k) = ins_sorted c rp (qs s (QTo k))) (fun _ _ => True) s.
Proof.
  intros n c ks i rp p fl fp u cap s C. unfold to_store. apply wp_bind, wp_when; intros _; [apply wp_raise; auto|].
  apply wp_bind, wp_stat. rewrite C. cbn [steqb negb when]. apply wp_bind, wp_ret, wp_bind.
  eapply wp_conseq; [apply w_fail_time | cbv beta | auto]. intros t ? ->. apply wp_bind, wp_setc, wp_bind.
  eapply wp_conseq; [apply w_to_try | cbv beta | auto]. intros [] s1.
  - intros S. apply wp_ret. congruence.
  - intros ->. apply wp_bind. eapply wp_conseq; [apply (w_enters nat QTo c rp (fun _ => ret tt)); reflexivity | cbv beta | auto].
    intros _ s1 (Q1 & _). apply wp_bind, wp_setc, wp_bind, wp_setc, wp_bind, wp_setc, wp_bind, wp_setc. eapply wp_conseq; [apply w_resched_qs | cbv beta | auto].
    intros _ s2 -> _ k0 I. apply (Q1 k0 I).
Qed.
Lemma placed_ins : forall s q c p l', started s -> a_line q -> l' = ins_sorted c p (qs s q) -> placed c p (qs s q) l'.
Proof. intros s q c p l' R L ->. unfold placed. apply ins_place. apply C77_ordered; auto. Qed.
Lemma reach_p_started : forall P s, reach_p P s -> started s.
Proof. intros P s H. apply started_t. eapply reach_p_t; eauto. Qed.
(** the same for request: C20_place *)
Theorem C77_wait_place : forall s n c args all fail p u cap s', reachable s -> c_status (comps s c) = Current ->
  exec n (OWait c args all fail p u cap) s = (s', Ok tt) -> c_status (comps s' c) = Waiting ->
  forall st p', listed st args = Some p' -> placed c p' (qs s (QWait st)) (qs s' (QWait st)).
Proof.
  intros s n c args all fail p u cap s' R C E S st p' L. pose proof (reach_p_QI _ _ R) as Q.
  assert (UN : c_waits (comps s c) = []) by (apply (free_idle s c); [apply (qi_k _ Q) | apply Q | unfold idle; rewrite C; tauto]).
  pose proof (line_wait c args all fail p u cap s C UN) as H. unfold wp in H. cbn [exec] in E. rewrite E in H.
  apply placed_ins; [apply reach_p_started in R; exact R | discriminate | apply H; auto].
Qed.
Theorem C77_from_store_place : forall s n c ks f key rp fl fp u cap s', started s -> c_status (comps s c) = Current ->
  exec n (OFromStore c ks f key rp fl fp u cap) s = (s', Ok tt) -> c_status (comps s' c) = Requesting ->
  forall k, In k ks -> placed c rp (qs s (QFrom k)) (qs s' (QFrom k)).
Proof.
  intros s n c ks f key rp fl fp u cap s' R C E S k I. pose proof (line_from_store n c ks f key rp fl fp u cap s C) as H. unfold wp in H. cbn [exec] in E. rewrite E in H.
  apply placed_ins; [exact R | discriminate | apply H; auto].
Qed.
Theorem C77_to_store_place : forall s n c ks i rp p fl fp u cap s', started s -> c_status (comps s c) = Current ->
  exec n (OToStore c ks i rp p fl fp u cap) s = (s', Ok tt) -> c_status (comps s' c) = Requesting ->
  forall k, In k ks -> placed c rp (qs s (QTo k)) (qs s' (QTo k)).
Proof.
  intros s n c ks i rp p fl fp u cap s' R C E S k I. pose proof (line_to_store n c ks i rp p fl fp u cap s C) as H. unfold wp in H. cbn [exec] in E. rewrite E in H.
  apply placed_ins; [exact R | discriminate | apply H; auto].
Qed.
(** wait_for: the place is by the scheduling priority, not by the request priority that is given to the call; this is what the code does *)
Theorem C77_wait_for_place : forall s n c cond states fail p u cap s', started s -> c_status (comps s c) = Current ->
  exec n (OWaitFor c cond states fail p u cap) s = (s', Ok tt) -> c_status (comps s' c) = Waiting ->
  forall st, In st states -> placed c p (qs s (QWait st)) (qs s' (QWait st)).
Proof.
  intros s n c cond states fail p u cap s' R C E S st I. pose proof (line_wait_for c cond states fail p u cap s C) as H. unfold wp in H. cbn [exec] in E. rewrite E in H.
  apply placed_ins; [exact R | discriminate | apply H; auto].
Qed.
(** the call as it is documented (8883-8896): request_priority, "put component in waiters queue according to the given priority". The body does not use it. *)
Definition wait_for_as_called (c : nat) (cond : (nat -> Z) -> bool) (states : list nat) (request_priority : xq) (fail : spec) (p : xq) (u : bool) (cap : option bool) : op :=
  OWaitFor c cond states fail p u cap.
Lemma script_started : forall n l s, script n l env0 = Some s -> started s.
Proof.
  intros n l s H. do 7 eexists. eapply runs_calls, script_runs. exact H.
Qed.
Definition never (v : nat -> Z) : bool := false.
Definition two_wait : list op :=
  [ OCreate 1 None (Fin 0) (Fin 0) false false None; OCreate 2 None (Fin 0) (Fin 0) false false None; ORun (SDur (Fin 100)) PInf false None;
    OStep; wait_for_as_called 1 never [0%nat] (Fin 0) SNone (Fin 0) false None; OStep ].
Theorem C77_wait_for_request_priority_refuted : exists s n c cond states rp p s', started s /\ c_status (comps s c) = Current /\
  exec n (wait_for_as_called c cond states rp SNone p false None) s = (s', Ok tt) /\ c_status (comps s' c) = Waiting /\
  exists st, In st states /\ ~ placed c rp (qs s (QWait st)) (qs s' (QWait st)).
Proof.
  destruct (script 9 two_wait env0) as [s|] eqn:E; [|vm_compute in E; discriminate].
  exists s, 9%nat, 2%nat, never, [0%nat], (Fin (-(1))), (Fin 0).
  destruct (exec 9 (wait_for_as_called 2 never [0%nat] (Fin (-(1))) SNone (Fin 0) false None) s) as [s' r] eqn:X. exists s'.
  assert (V : qs s (QWait 0%nat) = [(1%nat, Fin 0)] /\ qs s' (QWait 0%nat) = [(1%nat, Fin 0); (2%nat, Fin 0)] /\ c_status (comps s 2%nat) = Current /\ c_status (comps s' 2%nat) = Waiting /\ r = Ok tt).
  { revert X. revert E. clear. intros E X. 
    assert (Y : match script 9 two_wait env0 with Some s => let (s', r) := exec 9 (wait_for_as_called 2 never [0%nat] (Fin (-(1))) SNone (Fin 0) false None) s in
       (qs s (QWait 0%nat) = [(1%nat, Fin 0)] /\ qs s' (QWait 0%nat) = [(1%nat, Fin 0); (2%nat, Fin 0)] /\ c_status (comps s 2%nat) = Current /\ c_status (comps s' 2%nat) = Waiting /\ r = Ok tt) | None => False end)
      by (vm_compute; auto 10). rewrite E, X in Y. exact Y. }
  destruct V as (V1 & V2 & V3 & V4 & ->).
  split; [|split; [exact V3|split; [reflexivity|split; [exact V4|]]]].
  - apply (script_started 9 two_wait); auto.
  - exists 0%nat. split; [left; auto|]. rewrite V1, V2. intros (l1 & l2 & _ & E2 & _). destruct l1 as [|a [|b [|d l1]]]; cbn in E2; try discriminate.
Qed.
(** four components: 1, 2 and 3 wait for a state with priorities 0, -1 and 0, and 4 for something from a store; 1 is in front of 3, which came later, and 2 in
    front of both; when the state is set to a value that is good for 1 only, 2 and 3 stay in order *)
Definition is_ (x v : Z) : bool := (x =? v)%Z.
Definition a_line_forms : list op :=
  [ OCreate 1 None (Fin 0) (Fin 0) false false None; OCreate 2 None (Fin 0) (Fin 0) false false None; OCreate 3 None (Fin 0) (Fin 0) false false None;
    OCreate 4 None (Fin 0) (Fin 0) false false None; ORun (SDur (Fin 100)) PInf false None;
    OStep; OWait 1 [(0%nat, is_ 1, Fin 0)] false SNone (Fin 0) false None; OStep; OWait 2 [(0%nat, is_ 2, Fin (-(1)))] false SNone (Fin 0) false None;
    OStep; OWait 3 [(0%nat, is_ 2, Fin 0); (1%nat, is_ 2, Fin 5)] true SNone (Fin 0) false None;
    OStep; OFromStore 4 [0%nat; 1%nat] (fun _ => true) None (Fin 3) SNone (Fin 0) false None ].
Example C77_case : exists s s', started s /\ qs s (QWait 0%nat) = [(2%nat, Fin (-(1))); (1%nat, Fin 0); (3%nat, Fin 0)] /\ qs s (QWait 1%nat) = [(3%nat, Fin 5)] /\
  qs s (QFrom 1%nat) = [(4%nat, Fin 3)] /\ exec 9 (OSet 0 1) s = (s', Ok tt) /\ qs s' (QWait 0%nat) = [(2%nat, Fin (-(1))); (3%nat, Fin 0)].
Proof.
  destruct (script 9 a_line_forms env0) as [s|] eqn:E; [|vm_compute in E; discriminate].
  destruct (exec 9 (OSet 0 1) s) as [s' r] eqn:X. exists s, s'. split; [eapply script_started; eauto|].
  assert (Y : match script 9 a_line_forms env0 with Some s => let (s', r) := exec 9 (OSet 0 1) s in
    qs s (QWait 0%nat) = [(2%nat, Fin (-(1))); (1%nat, Fin 0); (3%nat, Fin 0)] /\ qs s (QWait 1%nat) = [(3%nat, Fin 5)] /\
    qs s (QFrom 1%nat) = [(4%nat, Fin 3)] /\ r = Ok tt /\ qs s' (QWait 0%nat) = [(2%nat, Fin (-(1))); (3%nat, Fin 0)] | None => False end) by (vm_compute; auto 10).
  rewrite E, X in Y. destruct Y as (Y1 & Y2 & Y3 & -> & Y4). auto 10.
Qed.
(** wait with a priority, and from_store: the newcomer of C77_wait_place and C77_from_store_place *)
Example C77_place_case : exists s s', reachable s /\ c_status (comps s 2%nat) = Current /\
  exec 9 (OWait 2 [(0%nat, is_ 2, Fin (-(1)))] false SNone (Fin 0) false None) s = (s', Ok tt) /\ c_status (comps s' 2%nat) = Waiting /\
  listed 0 [(0%nat, is_ 2, Fin (-(1)))] = Some (Fin (-(1))) /\ qs s (QWait 0%nat) = [(1%nat, Fin 0)] /\ qs s' (QWait 0%nat) = [(2%nat, Fin (-(1))); (1%nat, Fin 0)].
Proof.
  exists (stp any env0 (firstn 8 a_line_forms)), (fst (exec 9 (OWait 2 [(0%nat, is_ 2, Fin (-(1)))] false SNone (Fin 0) false None) (stp any env0 (firstn 8 a_line_forms)))).
  split; [|do 5 (split; [vm_compute; reflexivity|]); vm_compute; reflexivity].
  unfold env0. apply stp_reach; [auto | | vm_compute; reflexivity].
  intros r. do 6 eexists. split; [reflexivity | auto].
Qed.
Print Assumptions C77_ordered.
Print Assumptions C77_nobody_overtakes.
Print Assumptions C77_nobody_joins.
Print Assumptions C77_wait_place.
Print Assumptions C77_wait_for_place.
Print Assumptions C77_from_store_place.
Print Assumptions C77_to_store_place.
Print Assumptions C77_wait_for_request_priority_refuted.
