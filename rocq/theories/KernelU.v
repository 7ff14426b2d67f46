(** What calls directed at other components leave alone: a component that is in no requesters,
    waiters or store requesters queue keeps everything but (possibly) its claims. *)
From Coq Require Import QArith Lqa List Bool Arith ZArith Lia.
From Verif Require Import Base Kernel Wp KernelE KernelL KernelX KernelT.
Import ListNotations.
Open Scope Q_scope.

Definition mem (s : env) (q : qref) (c : nat) : Prop := In c (map fst (qs s q)).
(** the queues through which a component can be honored *)
Definition regq (q : qref) : bool := match q with QReq _ | QWait _ | QFrom _ | QTo _ => true | _ => false end.
Definition NQ (x : nat) (s : env) : Prop := forall q, regq q = true -> ~ mem s q x.
Definition evs (x : nat) (s : env) : list ev := filter (fun e => Nat.eqb (e_c e) x) (evl s).
Definition inl (x : nat) (l : list nat) : list nat := filter (Nat.eqb x) l.
Arguments inl : simpl never.
Definition keep (x : nat) (s s' : env) : Prop :=
  w_claims [] (comps s' x) = w_claims [] (comps s x) /\ evs x s' = evs x s /\
  inl x (stby s') = inl x (stby s) /\ inl x (pend s') = inl x (pend s).
Definition Rx (x : nat) (s s' : env) : Prop := NQ x s -> NQ x s' /\ keep x s s'.

Lemma keep_refl : forall x s, keep x s s. Proof. repeat split. Qed.
Lemma keep_trans : forall x a b c, keep x a b -> keep x b c -> keep x a c.
Proof. intros x a b c (A1 & A2 & A3 & A4) (B1 & B2 & B3 & B4). repeat split; congruence. Qed.
Lemma Rx_po : forall x, preorder (Rx x).
Proof.
  constructor; unfold Rx.
  - auto using keep_refl.
  - intros a b c A B N. destruct (A N) as (N1 & K1). destruct (B N1) as (N2 & K2). eauto using keep_trans.
Qed.
(** projections of w_claims [] equality *)
Lemma keep_fields : forall x s s', keep x s s' ->
  let a := comps s x in let b := comps s' x in
  c_status b = c_status a /\ c_sched b = c_sched a /\ c_rem b = c_rem a /\ c_onev b = c_onev a /\ c_ilevel b = c_ilevel a /\
  c_istat b = c_istat a /\ c_requests b = c_requests a /\ c_waits b = c_waits a /\ c_from b = c_from a /\ c_to b = c_to a /\
  c_fitem b = c_fitem a /\ c_failed b = c_failed a /\ c_skip b = c_skip a /\ c_hasproc b = c_hasproc a /\ c_retry b = c_retry a.
Proof.
  intros x s s' (K & _) a b.
  assert (G : forall A (f : comp -> A), (forall y, f (w_claims [] y) = f y) -> f b = f a).
  { intros A f H. unfold a, b. rewrite <- (H (comps s' x)), <- (H (comps s x)). rewrite K. auto. }
  repeat split; apply G; reflexivity.
Qed.

Section U.
  Context (x : nat).
  Let PO := Rx_po x.
  Local Notation R := (Rx x).

  Lemma x_comp : forall c f s, c <> x -> R s (m_comp c f s).
  Proof.
    intros c f s H N. split; [exact N|]. unfold keep. rewrite comps_diff by auto. repeat split.
  Qed.
  Lemma x_rsc : forall r f s, R s (m_rsc r f s).
  Proof. intros r f s N. split; [exact N | repeat split]. Qed.
  Lemma x_same : forall s s', qs s' = qs s -> comps s' = comps s -> evl s' = evl s -> stby s' = stby s -> pend s' = pend s -> R s s'.
  Proof.
    intros s s' E1 E2 E3 E4 E5 N. unfold NQ, mem, keep, evs. rewrite E1, E2, E3, E4, E5. repeat split; auto.
  Qed.
  Lemma x_storeq : forall k f s, R s (m_q (QStore k) f s).
  Proof.
    intros k f s N. split; [|repeat split]. intros q Q. unfold mem. rewrite qs_m_q.
    destruct (qeqb_spec q (QStore k)) as [->|]; [discriminate|]. apply N; auto.
  Qed.
  Lemma x_q_leave : forall q c, frames R (q_leave q c).
  Proof.
    intros q c. unfold q_leave. fgo PO. intros N. split; [|repeat split].
    intros q' Q. unfold mem. rewrite qs_m_q. destruct (qeqb_spec q' q) as [->|]; [|apply N; auto].
    intros I. apply (N q Q). change (In x (keys (adel c (qs s q)))) in I. apply keys_adel_in in I. tauto.
  Qed.
  Lemma in_ins_tail : forall c p l d, In d (map fst (ins_tail c p l)) <-> d = c \/ In d (map fst l).
  Proof.
    induction l as [|y t IH]; intros d; cbn [ins_tail].
    - cbn. intuition congruence.
    - destruct (forallb _ (y :: t)); cbn; [|rewrite IH]; intuition congruence.
  Qed.
  Lemma in_ins_sorted : forall c p l d, In d (map fst (ins_sorted c p l)) <-> d = c \/ In d (map fst l).
  Proof.
    intros. unfold ins_sorted. destruct l as [|y t]; [cbn; intuition congruence|].
    destruct (xltb p (snd y)); [cbn; intuition congruence | apply in_ins_tail].
  Qed.
  Lemma x_q_enter : forall q c p, c <> x -> frames R (q_enter q c p).
  Proof.
    intros q c p H. unfold q_enter. fgo PO. intros N. split; [|repeat split].
    intros q' Q. unfold mem. rewrite qs_m_q. destruct (qeqb_spec q' q) as [->|]; [|apply N; auto].
    rewrite in_ins_sorted. intros [->|I]; [congruence | apply (N q Q I)].
  Qed.
  Lemma x_claim_enter : forall r c p, frames R (q_enter (QClaim r) c p).
  Proof.
    intros r c p. unfold q_enter. fgo PO. intros N. split; [|repeat split].
    intros q' Q. unfold mem. rewrite qs_m_q. destruct (qeqb_spec q' (QClaim r)) as [->|]; [discriminate | apply N; auto].
  Qed.
  Lemma x_setclaims : forall c f s, R s (m_comp c (fun y => w_claims (f y) y) s).
  Proof.
    intros c f s N. split; [exact N|]. unfold keep. repeat split. rewrite comps_m_comp.
    destruct (Nat.eqb_spec x c) as [->|]; auto.
  Qed.
  Lemma evs_del : forall c l l', ev_del c l = Some l' -> c <> x ->
    filter (fun e => Nat.eqb (e_c e) x) l' = filter (fun e => Nat.eqb (e_c e) x) l.
  Proof.
    intros c l l' E H. apply ev_del_some in E. destruct E as (l1 & e & l2 & -> & <- & ->).
    rewrite !filter_app. cbn. destruct (Nat.eqb_spec (e_c e) x); [congruence | auto].
  Qed.
  Lemma inl_remove1 : forall c l, c <> x -> inl x (remove1 c l) = inl x l.
  Proof.
    intros c l H. unfold inl. induction l as [|y t IH]; cbn; auto. destruct (Nat.eqb_spec y c) as [->|].
    - destruct (Nat.eqb_spec x c); [congruence | auto].
    - cbn. rewrite IH. auto.
  Qed.
  Lemma x_remove : forall c, c <> x -> frames R (remove c).
  Proof.
    intros c H s. unfold remove, bind, get, put, setc, stat, when, ret.
    destruct (c_onev (comps s c)); cbn.
    - destruct (ev_del c (evl s)) as [l'|] eqn:E; cbn; [|apply PO].
      intros N. split; [exact N|]. unfold keep, evs. rewrite comps_diff by auto. cbn. repeat split. eapply evs_del; eauto.
    - destruct (steqb _ _); cbn; [|apply PO]. intros N. split; [exact N|]. unfold keep. cbn.
      rewrite !inl_remove1 by auto. repeat split.
  Qed.
  Lemma x_resched : forall c t p u cap, c <> x -> frames R (reschedule c t p u cap).
  Proof.
    intros c t p u cap H. unfold reschedule, push. fgo PO; auto using x_comp; try (apply x_same; reflexivity).
    intros N. split; [exact N|]. unfold keep, evs. cbn. rewrite filter_app. cbn.
    destruct (Nat.eqb_spec c x); [congruence|]. rewrite app_nil_r. repeat split.
  Qed.
  Lemma x_leave_req : forall c r, frames R (leave_req c r).
  Proof. intros. unfold leave_req. fgo PO; auto using x_q_leave, x_rsc. Qed.
  Lemma x_check_fail : forall c, c <> x -> frames R (check_fail c).
  Proof. intros c H. unfold check_fail. fgo PO; auto using x_leave_req, x_q_leave, x_comp. Qed.
  Ltac f := fgo PO; auto using x_q_leave, x_q_enter, x_remove, x_check_fail, x_resched, x_comp, x_rsc, x_leave_req.
  Lemma x_activate : forall c a d p u pr kr kw cap, c <> x -> frames R (activate c a d p u pr kr kw cap).
  Proof. intros. unfold activate. f. Qed.
  Lemma x_create : forall c a d p u sk cap, c <> x -> frames R (create c a d p u sk cap).
  Proof. intros. unfold create. f. Qed.
  Lemma x_hold : forall c sp p u i cap, c <> x -> frames R (hold c sp p u i cap).
  Proof. intros. unfold hold, check_notdata. f. Qed.
  Lemma x_passivate : forall c, c <> x -> frames R (passivate c).
  Proof. intros. unfold passivate, check_notdata. f. Qed.
  Lemma x_interrupt : forall c, c <> x -> frames R (interrupt c).
  Proof. intros. unfold interrupt, check_notdata. f. Qed.
  Lemma x_resume : forall c a p u, c <> x -> frames R (resume c a p u).
  Proof. intros. unfold resume. f. Qed.
  Lemma x_standby : forall c, c <> x -> frames R (standby c).
  Proof.
    intros. unfold standby, check_notdata, check_notmain. f. intros N. split; [exact N|]. unfold keep. cbn.
    unfold inl. rewrite filter_app. cbn. destruct (Nat.eqb_spec x c); [congruence|]. rewrite app_nil_r. repeat split.
  Qed.
  Lemma x_set_remaining : forall c v p u, c <> x -> frames R (set_remaining c v p u).
  Proof. intros. unfold set_remaining. f. Qed.
  Lemma x_claim : forall c r q, frames R (claim c r q).
  Proof. intros. unfold claim, q_prio. f; auto using x_claim_enter. apply x_setclaims. Qed.
  Lemma x_honor_one : forall c r q, frames R (honor_one c r q).
  Proof. intros. unfold honor_one, q_prio. f. Qed.
  Lemma x_honor_all_from : forall c rq, frames R (honor_all_from c rq).
  Proof. induction rq as [|[r q] t IH]; cbn; f; auto using x_honor_one. Qed.
  Lemma x_honor_any_from : forall c rq, frames R (honor_any_from c rq).
  Proof. induction rq as [|[r q] t IH]; cbn; f; auto using x_honor_one. Qed.
  Lemma x_c_try : forall rt c, c <> x -> (forall r, frames R (rt r)) -> frames R (c_try rt c).
  Proof.
    intros rt c H Hrt. unfold c_try, honor_all, honor_any. f; auto using x_honor_all_from, x_honor_any_from, x_claim.
  Qed.
  (** loops over the members of a queue: x is not among them *)
  Lemma mem_hd : forall s q c p, hd_error (qs s q) = Some (c, p) -> mem s q c.
  Proof. intros s q c p H. unfold mem. destruct (qs s q); [discriminate|]. injection H as ->. left. auto. Qed.
  Lemma mem_qnext : forall s q d c p, qnext d (qs s q) = Some (c, p) -> mem s q c.
  Proof.
    intros s q d c p. unfold mem. generalize (qs s q). induction l as [|[e pe] t IH]; cbn; [discriminate|].
    destruct (Nat.eqb d e); intros H; [|right; auto]. destruct t; [discriminate|]. injection H as ->. right; left; auto.
  Qed.
  Lemma x_wp : forall A (m : M A) s, frames R m -> wp m (fun _ s' => R s s') (fun _ s' => R s s') s.
  Proof. intros. apply frames_wp; auto. Qed.
  (** sequencing: first m, then something that knows more *)
  Lemma x_seq : forall A (m : M A) (Q : A -> env -> Prop) s0 s, frames R m -> R s0 s ->
    (forall a s', R s0 s' -> Q a s') -> wp m Q (fun _ s' => R s0 s') s.
  Proof.
    intros A m Q s0 s F H K. eapply wp_conseq; [apply (x_wp _ m s F) | |]; cbv beta; intros.
    - apply K. eapply PO; eauto.
    - eapply PO; eauto.
  Qed.
  Definition notx (m : option (nat * xq)) : Prop := match m with Some (c, _) => c <> x | None => True end.
  Lemma x_rloop : forall rt r an first p1, (forall r, frames R (rt r)) -> forall n mx s0 s, NQ x s0 -> R s0 s -> notx mx ->
    wp (rloop (c_try rt) n r an first p1 mx) (fun _ s' => R s0 s') (fun _ s' => R s0 s') s.
  Proof.
    intros rt r an first p1 Hrt. induction n as [|n IH]; intros mx s0 s N0 H NX; cbn [rloop]; destruct mx as [[c p]|];
      try (apply wp_ret; exact H); [apply wp_raise; exact H|].
    apply wp_bind, wp_get. destruct (_ && _); [apply wp_ret; auto|]. destruct (_ && _); [apply wp_ret; auto|].
    destruct (_ && _); [apply wp_ret; auto|]. apply wp_bind, wp_get. destruct (inq _ _); [|apply wp_raise; auto].
    apply wp_bind. apply x_seq; auto; [apply x_c_try; auto|]. intros b s1 H1. apply wp_bind, wp_get. apply IH; auto.
    destruct (H N0) as (N & _). destruct (H1 N0) as (N1 & _).
    destruct (_ && _).
    - unfold notx. destruct (hd_error (qs s1 (QReq r))) as [[d pd]|] eqn:E; auto. apply mem_hd in E.
      intros ->. exact (N1 (QReq r) eq_refl E).
    - unfold notx. destruct (qnext c (qs s (QReq r))) as [[d pd]|] eqn:E; auto. apply mem_qnext in E.
      intros ->. exact (N (QReq r) eq_refl E).
  Qed.
  (** a frame fact may assume NQ at the start *)
  Lemma x_from : forall A (m : M A), (forall s, NQ x s -> wp m (fun _ s' => R s s') (fun _ s' => R s s') s) -> frames R m.
  Proof.
    intros A m H s N. specialize (H s N). unfold wp in H. destruct (m s) as [s' [a|e]]; apply (H N).
  Qed.
  Lemma x_r_try : forall n r, frames R (r_try n r).
  Proof.
    induction n as [|n IH]; intros r; cbn [r_try]; [f|]. apply x_from. intros s N.
    assert (NX : notx (hd_error (qs s (QReq r)))).
    { unfold notx. destruct (hd_error (qs s (QReq r))) as [[d pd]|] eqn:E; auto. apply mem_hd in E.
      intros ->. exact (N (QReq r) eq_refl E). }
    apply wp_bind, wp_get. apply wp_bind, wp_get. destruct (r_anon (rsc s r)).
    - apply wp_bind, wp_get. destruct (r_trying (rsc s r)); [apply wp_ret, PO|]. apply wp_bind, wp_setr.
      apply wp_bind. eapply wp_conseq; [apply x_rloop with (s0 := s); auto using x_rsc | |]; cbv beta; auto.
    - apply x_rloop; auto. apply PO.
  Qed.
  Lemma x_release1 : forall n c r q b, frames R (release1 n c r q b).
  Proof. intros. unfold release1. f; auto using x_r_try; apply x_setclaims. Qed.
  Lemma x_release : forall n c a, frames R (release n c a).
  Proof. intros. unfold release. f; auto using x_release1. Qed.
  Lemma x_release_claimers : forall g n r mx, frames R (release_claimers g n r mx).
  Proof. induction n; intros r mx; cbn [release_claimers]; destruct mx as [[c p]|]; f; apply x_release. Qed.
  Lemma x_res_release : forall n r q, frames R (res_release n r q).
  Proof. intros. unfold res_release. f; auto using x_r_try, x_release_claimers. Qed.
  Lemma x_set_cap : forall n r q, frames R (set_cap n r q).
  Proof. intros. unfold set_cap. f; auto using x_r_try. Qed.
  Lemma x_cancel : forall n c, c <> x -> frames R (cancel n c).
  Proof. intros. unfold cancel. f; auto using x_release1. Qed.
  Lemma x_terminate : forall n c, c <> x -> frames R (terminate n c).
  Proof. intros. unfold terminate. f; auto using x_release1. Qed.
  Lemma x_continue : forall n c, c <> x -> frames R (continue n c).
  Proof. intros. unfold continue. f; auto using x_r_try. Qed.
  Lemma x_c_trywait : forall c, c <> x -> frames R (c_trywait c).
  Proof. intros. unfold c_trywait, leave_wait. f. Qed.
  Lemma x_s_trywait : forall l m, ~ In x l -> frames R (s_trywait l m).
  Proof.
    induction l as [|c t IH]; intros m H; cbn [s_trywait]; [f|]. cbn in H.
    f; [apply x_c_trywait; intro; subst; tauto | apply IH; tauto ..].
  Qed.
  Lemma x_st_trywait : forall st m, frames R (st_trywait st m).
  Proof.
    intros st m. apply x_from. intros s N. unfold st_trywait. apply wp_bind, wp_get. apply frames_wp.
    apply x_s_trywait. apply (N (QWait st)). auto.
  Qed.
  Lemma x_wait : forall c a al g p u cap, c <> x -> frames R (wait c a al g p u cap).
  Proof. intros. unfold wait, wait1, check_notdata, check_notmain, fail_time. f; auto using x_c_trywait. Qed.
  Lemma x_wait_for : forall c a al g p u cap, c <> x -> frames R (wait_for c a al g p u cap).
  Proof. intros. unfold wait_for, check_notdata, check_notmain, fail_time. f; auto using x_c_trywait. Qed.
  Lemma x_st_set : forall st v, frames R (st_set st v).
  Proof. intros. unfold st_set, set_sval. f; auto using x_st_trywait. apply x_same; reflexivity. Qed.
  Lemma x_st_trigger : forall st v a m, frames R (st_trigger st v a m).
  Proof. intros. unfold st_trigger, set_sval. f; auto using x_st_trywait; apply x_same; reflexivity. Qed.
  Lemma x_give : forall d c, d <> x -> frames R (give d c).
  Proof. intros. unfold give. f. Qed.
  Lemma x_leave_from : forall d, frames R (leave_from d).
  Proof. intros. unfold leave_from. f. Qed.
  Lemma x_leave_to : forall d, frames R (leave_to d).
  Proof. intros. unfold leave_to. f. Qed.
  Lemma x_set_kmav : forall k v, frames R (set_kmav k v).
  Proof. intros. unfold set_kmav. f. apply x_same; reflexivity. Qed.
  Lemma NQ_R : forall s s', NQ x s -> R s s' -> NQ x s'.
  Proof. intros s s' N H. apply (H N). Qed.
  Ltac xs := first [apply x_seq; [solve [auto using x_set_kmav, x_leave_from, x_leave_to, x_give, x_q_leave, x_remove, x_resched] | auto | intros ? ? ?]].
  Lemma x_item : forall n, (forall k c w, frames R (item_enter n k c w)) /\ (forall k c, frames R (item_leave n k c)).
  Proof.
    induction n as [|n [IH1 IH2]]; [split; intros; cbn; f|]. split; intros; apply x_from; intros s N.
    - cbn [item_enter]. apply wp_bind, wp_get. destruct (inq _ _); [apply wp_raise, PO|].
      destruct (negb _); [apply wp_raise, PO|]. apply wp_bind, wp_get. destruct (xltb _ _); [apply wp_raise, PO|].
      apply wp_bind. apply x_seq; auto using x_set_kmav; [apply PO|]. intros _ s1 H1.
      apply wp_bind, wp_put. set (s2 := m_q (QStore k) (ins_at c w) s1).
      assert (H2 : R s s2) by (eapply PO; [exact H1 | apply x_storeq]).
      apply wp_bind, wp_get.
      destruct (find _ _) as [d|] eqn:E; [|apply wp_ret; exact H2].
      assert (D : d <> x). { apply find_some in E. destruct E as (E & _). intros ->. exact (NQ_R _ _ N H2 (QFrom k) eq_refl E). }
      apply wp_bind. apply x_seq; auto. intros _ s3 H3. apply wp_bind. apply x_seq; auto using x_leave_from. intros _ s4 H4.
      apply x_seq; auto using x_give.
    - cbn [item_leave]. apply wp_bind, wp_get. destruct (negb _); [apply wp_raise, PO|].
      apply wp_bind, wp_put. set (s1 := m_q (QStore k) (adel c) s).
      assert (H1 : R s s1) by (apply x_storeq). apply wp_bind, wp_get. apply wp_bind. apply x_seq; auto using x_set_kmav.
      intros _ s2 H2. destruct (xltb _ _); [|apply wp_ret; auto]. apply wp_bind, wp_get.
      destruct (hd_error (map fst (qs s2 (QTo k)))) as [d|] eqn:E; [|apply wp_ret; auto].
      assert (D : d <> x).
      { intros ->. apply (NQ_R _ _ N H2 (QTo k) eq_refl). unfold mem. destruct (map fst (qs s2 (QTo k))); [discriminate|].
        injection E as ->. left; auto. }
      apply wp_bind, wp_get. destruct (c_titem (comps s2 d)) as [i|]; [|apply wp_raise; auto].
      apply wp_bind, wp_get. apply x_seq; auto. f; auto using x_leave_to.
  Qed.
  Lemma x_item_enter : forall n k c w, frames R (item_enter n k c w). Proof. intros. apply x_item. Qed.
  Lemma x_item_leave : forall n k c, frames R (item_leave n k c). Proof. intros. apply x_item. Qed.
  Lemma x_from_store : forall n c ks g key rp fl fp u cap, c <> x -> frames R (from_store n c ks g key rp fl fp u cap).
  Proof. intros. unfold from_store, check_notdata, check_notmain, fail_time. f; auto using x_item_leave. Qed.
  Lemma x_to_try : forall n c i p ks, c <> x -> frames R (to_try n c i p ks).
  Proof. induction ks; intros; cbn; f; auto using x_item_enter. Qed.
  Lemma x_to_store : forall n c ks i rp p fl fp u cap, c <> x -> frames R (to_store n c ks i rp p fl fp u cap).
  Proof. intros. unfold to_store, check_notdata, check_notmain, fail_time. f; auto using x_to_try. Qed.
  Lemma x_rescan_items : forall n k d l, d <> x -> frames R (rescan_items n k d l).
  Proof. induction l; intros; cbn; f; auto using x_item_leave, x_leave_from, x_give. Qed.
  Lemma x_rescan : forall n k, frames R (rescan n k).
  Proof.
    intros n k. apply x_from. intros s N. unfold rescan. apply wp_bind, wp_get.
    assert (D : forall d, In d (map fst (qs s (QFrom k))) -> d <> x).
    { intros d I ->. exact (N (QFrom k) eq_refl I). }
    apply wp_mfor_inv; [apply PO|]. intros d s1 I H1. apply x_seq; auto. f. apply x_rescan_items; auto.
  Qed.
  Lemma x_set_filter : forall n c g, c <> x -> frames R (set_filter n c g).
  Proof. intros. unfold set_filter. f; auto using x_rescan. Qed.
  Lemma x_rescan_to_loop : forall n k l, ~ In x l -> frames R (rescan_to_loop n k l).
  Proof.
    induction l as [|d t IH]; intros H; cbn [rescan_to_loop]; [f|]. cbn in H.
    assert (d <> x) by (intro; subst; tauto). f; auto using x_item_enter, x_leave_to.
  Qed.
  Lemma x_st_set_cap : forall n k cap, frames R (st_set_cap n k cap).
  Proof.
    intros n k cap. apply x_from. intros s N. unfold st_set_cap. apply wp_bind, wp_get. apply wp_bind, wp_put.
    apply wp_bind, wp_get. apply wp_bind. apply x_seq; auto using x_set_kmav; [apply x_same; reflexivity|].
    intros _ s1 H1. apply wp_when; intros _; auto. apply wp_bind, wp_get. apply x_seq; auto.
    apply x_rescan_to_loop. apply (NQ_R _ _ N H1 (QTo k) eq_refl).
  Qed.
  Lemma x_run : forall sp p u cap, main <> x -> frames R (run sp p u cap).
  Proof. intros. unfold run. f; apply x_same; reflexivity. Qed.
  (** request: other components may be bumped *)
  Definition Rcl (s s' : env) : Prop :=
    forall r, qs s' (QClaim r) = qs s (QClaim r) /\ r_preempt (rsc s' r) = r_preempt (rsc s r).
  Lemma Rcl_po : preorder Rcl.
  Proof. constructor; unfold Rcl; [auto|]. intros a b c A B r. destruct (A r), (B r). split; congruence. Qed.
  Lemma cl_rsc : forall r f s, r_preempt (f (rsc s r)) = r_preempt (rsc s r) -> Rcl s (m_rsc r f s).
  Proof. intros r f s H r'. split; auto. cbn. unfold upd. destruct (Nat.eqb_spec r' r) as [->|]; auto. Qed.
  Lemma cl_q : forall q f s, (forall r, q <> QClaim r) -> Rcl s (m_q q f s).
  Proof. intros q f s H r. split; auto. rewrite qs_m_q. destruct (qeqb_spec (QClaim r) q) as [E|]; auto. exfalso. eapply H; eauto. Qed.
  Lemma cl_q_leave : forall q c, (forall r, q <> QClaim r) -> frames Rcl (q_leave q c).
  Proof. intros. unfold q_leave. fgo Rcl_po. apply cl_q; auto. Qed.
  Lemma cl_q_enter : forall q c p, (forall r, q <> QClaim r) -> frames Rcl (q_enter q c p).
  Proof. intros. unfold q_enter. fgo Rcl_po. apply cl_q; auto. Qed.
  Lemma cl_same : forall s s', qs s' = qs s -> rsc s' = rsc s -> Rcl s s'.
  Proof. intros s s' E1 E2 r. rewrite E1, E2. auto. Qed.
  Lemma cl_remove : forall c, frames Rcl (remove c).
  Proof. intros. unfold remove. fgo Rcl_po; apply cl_same; reflexivity. Qed.
  Lemma cl_check_fail : forall c, frames Rcl (check_fail c).
  Proof.
    intros. unfold check_fail, leave_req. fgo Rcl_po; try (apply cl_q_leave; discriminate);
      try (apply cl_same; reflexivity); try (apply cl_rsc; reflexivity).
  Qed.
  Lemma in_bump : forall q p l av c, In c (fst (bump_candidates q p av l)) -> In c (map fst l).
  Proof.
    induction l as [|[d pd] t IH]; intros av c; cbn [bump_candidates]; [cbn; tauto|].
    destruct (xleb (Fin q) av); [cbn; tauto|]. destruct (xleb pd p); [cbn; tauto|].
    destruct (bump_candidates q p (xaddq av 0) t) as [cs av'] eqn:E. cbn. intros [->|I]; auto.
    right. eapply IH. rewrite E. exact I.
  Qed.
  Lemma x_request1_multi : forall n c a, c <> x -> frames R (request1 n c true a).
  Proof.
    intros n c [[r q] p] H. apply x_from. intros s N. unfold request1. apply wp_bind, wp_get.
    destruct (r_preempt (rsc s r)); [apply wp_raise, PO|]. cbn [andb when]. apply x_seq; [|apply PO | auto]. f.
  Qed.
  Lemma x_request1 : forall n c a s0 s, c <> x -> NQ x s0 -> R s0 s ->
    (r_preempt (rsc s (fst (fst a))) = true -> ~ mem s (QClaim (fst (fst a))) x) ->
    wp (request1 n c false a) (fun _ s' => R s0 s') (fun _ s' => R s0 s') s.
  Proof.
    intros n c [[r q] p] s0 s H N HR B. cbn [fst] in B. unfold request1. apply wp_bind, wp_get.
    apply wp_bind, wp_when; [intros _; apply wp_raise; auto | intros _].
    apply wp_bind, wp_when; [intros _; apply wp_raise; auto | intros _].
    apply wp_bind, wp_setc. match goal with |- wp _ _ _ (m_comp c ?g s) => set (s1 := m_comp c g s) end.
    assert (H1 : R s0 s1) by (eapply PO; [exact HR | apply x_comp; auto]).
    apply wp_bind.
    assert (F : frames (fun a b => R a b /\ Rcl a b) (q_enter (QReq r) c p)).
    { intros z. split; [apply x_q_enter; auto | apply cl_q_enter; discriminate]. }
    eapply wp_conseq; [apply (frames_wp _ _ _ s1 F) | |]; cbv beta.
    2: { intros _ s2 (E & _). eapply PO; eauto. }
    intros _ s2 (E & CL). assert (H2 : R s0 s2) by (eapply PO; eauto).
    apply wp_when; auto. intros P. apply wp_bind, wp_get. apply wp_bind, wp_get.
    destruct (bump_candidates _ _ _ _) as [cs av'] eqn:EB. apply wp_when; auto. intros _.
    apply wp_mfor_inv; auto. intros d s3 I H3.
    assert (D : d <> x).
    { intros ->. apply B; [auto|]. unfold mem. destruct (CL r) as (C1 & _). change (qs s (QClaim r)) with (qs s1 (QClaim r)). rewrite <- C1.
      apply in_rev. rewrite <- map_rev. eapply in_bump. rewrite EB. exact I. }
    apply x_seq; auto. f; auto using x_release1, x_activate.
  Qed.
  Definition bumps (s : env) (o : op) : Prop :=
    match o with
    | ORequest _ args _ _ _ _ _ => exists r q p, In (r, q, p) args /\ r_preempt (rsc s r) = true /\ mem s (QClaim r) x
    | _ => False
    end.
  Lemma x_request : forall n c args oo fl p u cap s, c <> x -> NQ x s -> ~ bumps s (ORequest c args oo fl p u cap) ->
    wp (request n c args oo fl p u cap) (fun _ s' => R s s') (fun _ s' => R s s') s.
  Proof.
    intros n c args oo fl p u cap s H N B. unfold request.
    set (R2 := fun a b => R a b /\ Rcl a b).
    assert (PO2 : preorder R2).
    { constructor; unfold R2; [split; [apply PO | apply Rcl_po]|]. intros a b d (A1 & A2) (B1 & B2).
      split; [eapply PO; eauto | eapply Rcl_po; eauto]. }
    assert (Sq : forall A (m : M A) (Q : A -> env -> Prop) s1, frames R2 m -> R2 s s1 -> (forall a s', R2 s s' -> Q a s') ->
                 wp m Q (fun _ s' => R s s') s1).
    { intros A m Q s1 F HR K. eapply wp_conseq; [apply (frames_wp _ _ _ s1 F) | |]; cbv beta; intros.
      - apply K. eapply PO2; eauto.
      - assert (R2 s s') by (eapply PO2; eauto). apply H1. }
    assert (SC : forall f, frames R2 (setc c f)).
    { intros g. fgo PO2. split; [apply x_comp; auto | apply cl_same; reflexivity]. }
    apply wp_bind. apply Sq; auto; [apply PO2|]. intros _ s1 H1. apply wp_bind, wp_stat.
    apply wp_bind. apply Sq; auto.
    { assert (frames R2 (remove c)) by (intros z; split; [apply x_remove; auto | apply cl_remove]).
      assert (frames R2 (check_fail c)) by (intros z; split; [apply x_check_fail; auto | apply cl_check_fail]).
      unfold check_notdata, check_notmain. fgo PO2; auto. }
    intros _ s2 H2. apply wp_bind. apply Sq; auto. { unfold fail_time. fgo PO2. }
    intros t s3 H3. apply wp_bind. apply Sq; auto. intros _ s4 H4.
    destruct args as [|a l].
    { apply wp_bind, wp_get. apply x_seq; auto; [apply x_resched; auto | apply H4]. }
    apply wp_bind.
    assert (K : wp (mfor (a :: l) (request1 n c (1 <? length (a :: l))%nat)) (fun _ s' => R s s') (fun _ s' => R s s') s4).
    { destruct l as [|a2 l].
      - cbn [mfor length]. apply wp_bind. eapply wp_conseq; [apply x_request1 with (s0 := s); auto; [apply H4|] | |]; cbv beta; auto.
        intros P I. apply B. destruct a as [[r q] pp]. cbn [fst] in *. exists r, q, pp. destruct H4 as (_ & C4). destruct (C4 r) as (C5 & C6).
        split; [left; auto|]. split; [congruence|]. unfold mem in *. rewrite <- C5. auto.
      - change (1 <? length (a :: a2 :: l))%nat with true. apply x_seq; auto; [|apply H4]. apply (fr_mfor _ PO). intros. apply x_request1_multi; auto. }
    eapply wp_conseq; [exact K | |]; cbv beta; auto. intros _ s5 H5. apply x_seq; auto.
    f. apply x_c_try; auto using x_r_try.
  Qed.

  (** [directed s o]: o is a call on x itself (or a preempting request that may bump x) *)
  Definition directed (s : env) (o : op) : Prop :=
    match o with
    | OCreate c _ _ _ _ _ _ | OActivate c _ _ _ _ _ _ _ _ | OHold c _ _ _ _ _ | OPassivate c | OInterrupt c
    | OResume c _ _ _ | OCancel c | OStandby c | ORemaining c _ _ _ | ORelease c _ | OWait c _ _ _ _ _ _
    | OWaitFor c _ _ _ _ _ _ | OFromStore c _ _ _ _ _ _ _ _ | OToStore c _ _ _ _ _ _ _ _ | OFilter c _ | OTouch c _
    | OSkip c _ => c = x
    | ORequest c _ _ _ _ _ _ => c = x \/ bumps s o
    | OEnd => cur s = x
    | ORun _ _ _ _ => x = main
    | _ => False
    end.
  Lemma x_exec : forall n o s, o <> OStep -> NQ x s -> ~ directed s o ->
    wp (exec n o) (fun _ s' => R s s') (fun _ s' => R s s') s.
  Proof.
    intros n o s NS N D.
    destruct o; try congruence; cbn [exec]; cbn [directed] in D;
      try (apply frames_wp; auto using x_create, x_activate, x_hold, x_passivate, x_interrupt, x_resume, x_cancel, x_standby,
        x_set_remaining, x_release, x_res_release, x_set_cap, x_wait, x_wait_for, x_st_set, x_st_trigger, x_from_store, x_to_store,
        x_item_enter, x_item_leave, x_st_set_cap, x_rescan, x_set_filter, x_run; f; fail).
    - apply x_request; auto.
    - apply frames_wp. unfold reset_now. f. apply x_same; reflexivity.
    - apply wp_bind, wp_get. apply frames_wp. apply x_terminate; auto.
  Qed.
End U.
