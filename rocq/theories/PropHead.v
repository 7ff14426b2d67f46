(** Property C19, continued: the first in line is served. *)
From Coq Require Import QArith Lqa List Bool Arith ZArith Lia.
From Verif Require Import Base Kernel Wp KernelE KernelL KernelX KernelT KernelU KernelR KernelQ KernelS KernelI KernelP KernelO KernelA KernelB KernelC KernelD KernelF KernelG KernelV KernelW KernelH PropRes PropReq PropWake PropGrant.
Import ListNotations.
Open Scope Q_scope.

(** granting requests never makes room in a resource that is not anonymous *)
Lemma gql_enough : forall Hd s s', fpath Hd gql s s' -> AM s -> forall r q, r_anon (rsc s r) = false -> 0 <= q ->
  enough (rsc s' r) q = true -> enough (rsc s r) q = true.
Proof.
  intros Hd s s' H. induction H as [s|s s1 s2 P G L _ G1 H IH|l s s1 s2 P G L _ _ _ G1 H IH]; intros A r q N NN E; auto.
  - destruct (P (LAnon 0 None)). discriminate.
  - assert (N1 : r_anon (rsc s1 r) = false) by (rewrite (kind_anon _ _ (lstep_kind _ _ _ r L)); auto).
    specialize (IH (AM_step _ _ _ L G A) r q N1 NN E). clear E.
    destruct l as [[x|]|c x v|c|c x v q0 b|x v|x cap]; try destruct P; cbn in L.
    + rewrite (enough_plain _ _ q (qt_rsc _ _ L r)) in IH. auto.
    + destruct L as (_ & _ & GR). rewrite (enough_plain _ _ q (grant_rsc s c s1 r GR)) in IH.
      destruct (alookup r (c_requests (comps s c))) as [v|] eqn:AL; auto. destruct (memb r (grant s c)); auto.
      revert IH. apply enough_more; auto.
      * cbn. pose proof (cl_req _ (am_cl _ A) c r v AL N). lra.
      * apply claimed_nonneg; auto.
Qed.
Lemma head_not_before : forall a (d : nat) (p : xq) l, NoDup (map fst ((d, p) :: l)) -> before a d ((d, p) :: l) -> False.
Proof.
  intros a d p l N (l1 & l2 & E & I1 & I2). destruct l1 as [|x t]; [destruct I1|]. cbn in E. injection E as <- ->. cbn in N. inversion N as [|? ? N1 _]; subst.
  apply N1. rewrite map_app. apply in_or_app. auto.
Qed.
Definition served (s' : env) (r d : nat) (q : Q) : Prop := c_requests (comps s' d) = [] \/ enough (rsc s' r) q = false.
Lemma xeqb_same : forall p, xeqb p p = true.
Proof. intros [q|]; auto. cbn. apply Qeq_bool_iff. reflexivity. Qed.
Lemma allowed_head : forall R d p l, allowed R ((d, p) :: l) d = true.
Proof.
  intros. unfold allowed, qprio. cbn [alookup]. rewrite Nat.eqb_refl, xeqb_same, !orb_true_r. reflexivity.
Qed.
(** the first in line is tried first: it is served, or there is no room for it *)
Lemma w_rloop_first : forall Hd rt,
  (forall r D s, J s -> OKD D s -> r_anon (rsc s r) = true -> SS (plusr D r) s -> wp (rt r) (fun _ s' => post Hd D s s') (fun _ _ => True) s) ->
  forall n r D s d p l q, Pre r D s -> r_anon (rsc s r) = false -> qs s (QReq r) = (d, p) :: l -> c_requests (comps s d) = [(r, q)] -> 0 < q ->
  c_status (comps s d) <> Interrupted ->
  wp (rloop (c_try rt) n r false (Some d) p (Some (d, p))) (fun _ s' => served s' r d q) (fun _ _ => True) s.
Proof.
  intros Hd rt Hrt n r D s d p l q (JS & O & SR & ND) AN HQ RQ P NI. pose proof (j_g _ JS) as G. specialize (ND AN).
  destruct n as [|n]; cbn [rloop]; [apply wp_raise; auto|]. apply wp_bind, wp_get. rewrite Nat.eqb_refl, xeqb_same. cbn [negb]. rewrite !andb_false_r.
  cbn [andb]. apply wp_if; intros B3.
  { apply wp_ret. right. apply xltb_iff in B3.
    assert (M : xle (r_minq (rsc s r)) (Fin q)) by (apply (j_m _ JS d r q); auto; rewrite RQ; left; auto).
    unfold enough. replace (Qltb 0 q) with true by (symmetry; apply Qltb_iff; auto). apply negb_false_iff, xltb_iff.
    destruct (xaddq (avail (rsc s r)) eps), (r_minq (rsc s r)); cbn in *; try contradiction; lra. }
  apply wp_bind, wp_get. apply wp_if; intros INQ; [|apply wp_raise; auto]. apply inq_iff in INQ.
  pose proof (gi_nd _ _ G (QReq r)) as NDQ. rewrite HQ in NDQ.
  assert (FT : map fst (qs s (QReq r)) = d :: map fst l) by (rewrite HQ; reflexivity).
  pose proof (sfx_next Hd d _ (gi_nd _ _ G (QReq r)) INQ) as SX.
  assert (SH : sfx d (qs s (QReq r)) = map fst (qs s (QReq r))) by (rewrite HQ; cbn; rewrite Nat.eqb_refl; auto).
  set (L := sfx d (qs s (QReq r))) in *.
  assert (S0 : SS (plusm D r L) s).
  { eapply SS_weak; [|exact SR]. intros c x W I [ | ->]; [left; auto|]. right. split; auto. rewrite SH. apply GI_mem_req; auto. }
  apply wp_bind. eapply wp_conseq; [apply (w_ct Hd rt Hrt d (plusm D r L) s); auto using SS_x | |]; cbv beta; auto.
  { intros x c H. left. apply O; auto. }
  { intros GR. apply (fair_intro (plusm D r L)); auto using SS_x. intros c x v E1 EX _ BF _. rewrite RQ in E1. injection E1 as <- <-. rewrite HQ in BF. eapply head_not_before; eauto. }
  intros b s1 H. apply wp_bind, wp_get. cbn [andb].
  assert (GRD : grant s d = [] -> enough (rsc s r) q = false).
  { intros E. destruct (enough (rsc s r) q) eqn:EN; auto. exfalso. apply (proj2 (grant_single s d r q RQ)); auto. unfold can_one. rewrite EN, HQ, allowed_head. reflexivity. }
  destruct H as [(-> & -> & [NG|NG])|(-> & P1 & R1 & _)]; [contradiction| |].
  - eapply wp_conseq; [apply (w_rloop_n Hd rt Hrt D s r _ _ O AN ND n _ (sfm (qnext d (qs s (QReq r))) (qs s (QReq r))) s); auto using sm_refl | |]; cbv beta; auto.
    + intros c W. destruct (Nat.eq_dec c d) as [->|N].
      * apply not_granted; [auto | apply W].
      * apply (blocked_weak (plusm D r L)); [|exact (S0 c W)]. intros x [|(-> & I)]; [left; auto|]. right. split; auto.
        rewrite SX in I. destruct I as [|I]; [congruence | auto].
    + intros c W I X. unfold sfm in X. destruct (qnext d (qs s (QReq r))) as [(e, pe)|]; [auto | destruct X].
    + intros _ s2 (_ & _ & _ & F2). right. destruct (enough (rsc s2 r) q) eqn:EN; auto.
      rewrite <- (GRD NG). symmetry. apply (gql_enough Hd s s2 F2 (j_a _ JS)); auto. lra.
  - pose proof P1 as (J1 & S1 & SM1 & F1). destruct (gql_path _ _ _ F1) as (_ & FQ). destruct (FQ r) as (f & EQ).
    eapply wp_conseq; [apply (w_rloop_n Hd rt Hrt D s r _ _ O AN ND n (qnext d (qs s (QReq r))) L s1); auto | |]; cbv beta; auto.
    + intros c (W1 & W) I X. rewrite SX in X. destruct X as [<-|X]; [congruence|]. unfold sfm in X.
      destruct (qnext d (qs s (QReq r))) as [(e, pe)|]; [|destruct X]. intros ME. rewrite EQ.
      apply (sfx_filter Hd); auto; [apply (gi_nd _ _ G) | rewrite <- EQ; auto|]. rewrite <- EQ. apply GI_mem_req; auto. apply J1.
    + intros _ s2 (_ & _ & _ & F2). left. destruct (proj1 (gql_path _ _ _ F2) d); congruence.
Qed.
Lemma w_try_first : forall n r D s d p l q, Pre r D s -> r_anon (rsc s r) = false -> qs s (QReq r) = (d, p) :: l -> c_requests (comps s d) = [(r, q)] -> 0 < q ->
  c_status (comps s d) <> Interrupted -> wp (r_try n r) (fun _ s' => served s' r d q) (fun _ _ => True) s.
Proof.
  intros [|n] r D s d p l q PR AN HQ RQ P NI; cbn [r_try]; [apply wp_raise; auto|].
  apply wp_bind, wp_get, wp_bind, wp_get. rewrite AN, HQ. cbn [hd_error].
  eapply (w_rloop_first (fun _ => True)); eauto. intros r' D' s' A B C E. apply w_r_try. split; [auto|]. split; [auto|]. split; [auto|]. intros; congruence.
Qed.
Lemma w_release1_first : forall n c r v s d p l q, Rest s -> r_anon (rsc s r) = false -> qs s (QReq r) = (d, p) :: l -> c_requests (comps s d) = [(r, q)] -> 0 < q ->
  c_status (comps s d) <> Interrupted -> wp (release1 n c r v false) (fun _ s' => served s' r d q) (fun _ _ => True) s.
Proof.
  intros n c r v s d p l q (JS & S & N) AN HQ RQ P NI. eapply wp_of_eq; [apply release1_split|]. cbn [negb when]. apply wp_bind.
  eapply wp_conseq; [apply (w_release1 n c r v s (j_g _ JS)) | |]; cbv beta; auto. intros _ s1 (G1 & w & AL & GV).
  assert (L : lstep (LFree c r w (taken_back w v) false) s s1). { split; [auto|]. split; [apply taken_le|]. split; [discriminate | auto]. }
  destruct (free_touch _ _ _ _ _ _ _ (Ex s) L G1 JS (fun x _ E => E)) as (J1 & SM1 & S1 & _ & QE & CE).
  assert (RQ1 : c_requests (comps s1 d) = [(r, q)]) by (rewrite <- RQ; exact (f_equal c_requests (CE d))).
  assert (ST1 : c_status (comps s1 d) = c_status (comps s d)) by exact (f_equal c_status (CE d)).
  eapply (w_try_first n r (Ex s)); eauto.
  - split; [auto|]. split; [apply (sm_OKD _ _ _ SM1), Rest_OKD; auto|]. split; [auto|]. intros _ e E. rewrite (sm_exc _ _ _ SM1). exact E.
  - rewrite (sm_anon _ _ _ SM1). auto.
  - rewrite QE. exact HQ.
  - congruence.
Qed.
Lemma w_set_cap_first : forall n r cap s d p l q, Rest s -> r_anon (rsc s r) = false -> qs s (QReq r) = (d, p) :: l -> c_requests (comps s d) = [(r, q)] -> 0 < q ->
  c_status (comps s d) <> Interrupted -> wp (set_cap n r cap) (fun _ s' => served s' r d q) (fun _ _ => True) s.
Proof.
  intros n r cap s d p l q (JS & S & N) AN HQ RQ P NI. unfold set_cap. apply wp_bind, wp_setr, wp_bind, wp_setr.
  match goal with |- wp _ _ _ ?z => set (s1 := z) end.
  assert (E : rset s r (cap_after cap (rsc s r)) s1).
  { split; [destruct s; reflexivity|]. intros x. unfold s1. rewrite !rsc_m_rsc, !Nat.eqb_refl. destruct (Nat.eqb x r); reflexivity. }
  assert (L : lstep (LCap r cap) s s1) by exact E.
  destruct (rset_touch r _ s s1 (Ex s) E) as (J1 & SM1 & S1); auto; [apply (AM_step _ _ _ L); apply JS|].
  eapply (w_try_first n r (Ex s)); eauto.
  - split; [auto|]. split; [apply (sm_OKD _ _ _ SM1), Rest_OKD; auto|]. split; [auto|]. intros _ e X. rewrite (sm_exc _ _ _ SM1). exact X.
  - rewrite (sm_anon _ _ _ SM1). auto.
Qed.

(** ** C19 *)
(** the head of the line has got what it asked for *)
Definition honored (s' : env) (d : nat) : Prop := c_requests (comps s' d) = [].
(** when something of a (non anonymous) resource is released, whatever its flags, the requester that is first in line
    gets what it asked for, unless there is still no room for it.  The statement in full says the same of the requester
    that is first in line AFTER the call, which is wrong: C19_first_refuted, C19_highest_refuted *)
Theorem C19_release_partial : forall n s c r v s' d q, reach_k s -> r_anon (rsc s r) = false -> first_in_line s r d -> c_requests (comps s d) = [(r, q)] -> 0 < q ->
  c_status (comps s d) = Requesting -> exec n (ORelease c [(r, v)]) s = (s', Ok tt) -> honored s' d \/ ~ room s' r q.
Proof.
  intros n s c r v s' d q R AN (p & l & HQ) RQ P ST E. cbn [exec release] in E.
  assert (W : wp (mfor [(r, v)] (fun a => an <- get (fun s => r_anon (rsc s (fst a))) ;; if (an : bool) then raise ValueErr else release1 n c (fst a) (snd a) false))
                 (fun _ s' => served s' r d q) (fun _ _ => True) s).
  { cbn [mfor fst snd]. apply wp_bind, wp_bind, wp_get. rewrite AN. eapply wp_conseq; [eapply w_release1_first; eauto | |]; cbv beta; auto.
    - apply reach_k_Rest; auto.
    - congruence. }
  apply (wp_exec _ _ _ _ _ _ _ W) in E. destruct E as [E|E]; [left; exact E | right]. intros X. apply room_enough in X. congruence.
Qed.
(** the same when the capacity is changed *)
Theorem C19_set_capacity_partial : forall n s r cap s' d q, reach_k s -> r_anon (rsc s r) = false -> first_in_line s r d -> c_requests (comps s d) = [(r, q)] -> 0 < q ->
  c_status (comps s d) = Requesting -> exec n (OSetCap r cap) s = (s', Ok tt) -> honored s' d \/ ~ room s' r q.
Proof.
  intros n s r cap s' d q R AN (p & l & HQ) RQ P ST E. cbn [exec] in E.
  assert (W : wp (set_cap n r cap) (fun _ s' => served s' r d q) (fun _ _ => True) s).
  { eapply w_set_cap_first; eauto; [apply reach_k_Rest; auto | congruence]. }
  apply (wp_exec _ _ _ _ _ _ _ W) in E. destruct E as [E|E]; [left; exact E | right]. intros X. apply room_enough in X. congruence.
Qed.
(** resource 3 honors the first in line only: component 1 has everything, 2 is first in line and 3 second *)
Definition waiting_line : list op :=
  [mk 1; mk 2; mk 3; go; OStep; req 1 [(3%nat, 2, Fin 0)]; OStep; req 2 [(3%nat, 1, Fin 0)]; OStep; req 3 [(3%nat, 1, Fin 0)]; OStep].
Example C19_case_release : let s := after waiting_line in let o := ORelease 1 [(3%nat, Some 1)] in
  reach_k s /\ r_hfirst (rsc s 3) = true /\ r_anon (rsc s 3) = false /\ first_in_line s 3 2 /\ c_requests (comps s 2) = [(3%nat, 1)] /\ c_status (comps s 2) = Requesting /\
  snd (exec 20 o s) = Ok tt /\ honored (fst (exec 20 o s)) 2 /\ c_requests (comps (fst (exec 20 o s)) 3) = [(3%nat, 1)].
Proof.
  cbv zeta. split; [reached|]. split; [vm_compute; reflexivity|]. split; [vm_compute; reflexivity|]. split; [eexists; eexists; vm_compute; reflexivity|].
  split; [vm_compute; reflexivity|]. split; [vm_compute; reflexivity|]. split; [vm_compute; reflexivity|]. split; vm_compute; reflexivity.
Qed.
Example C19_case_set_capacity : let s := after waiting_line in let o := OSetCap 3 (Fin 3) in
  snd (exec 20 o s) = Ok tt /\ honored (fst (exec 20 o s)) 2 /\ c_requests (comps (fst (exec 20 o s)) 3) = [(3%nat, 1)].
Proof. cbv zeta. split; [vm_compute; reflexivity|]. split; vm_compute; reflexivity. Qed.

Print Assumptions C19_release_partial.
Print Assumptions C19_set_capacity_partial.
