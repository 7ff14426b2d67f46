(** What calls directed at other components do to a component that waits in queues of one kind: they leave it
    alone until it is honored.  [MReq]: it may be in requesters queues of resources, [MWait]: in waiters
    queues of states, [MFrom], [MTo]: in store requester queues, [MStill]: in requesters queues, and the call
    does not try to honor requests, [MHold]: in waiters queues, and the call does not set a state. *)
From Coq Require Import QArith Lqa List Bool Arith ZArith Lia.
From Verif Require Import Base Kernel Wp KernelE KernelL KernelX KernelT KernelU.
From Verif Require Import KernelB.
Import ListNotations.
Open Scope Q_scope.

Inductive mode := MReq | MWait | MFrom | MTo | MStill | MHold.
(** the queues in which the component is not *)
Definition regm (m : mode) (q : qref) : bool :=
  match q, m with
  | QReq _, (MReq | MStill) => false
  | QWait _, (MWait | MHold) => false
  | QFrom _, MFrom => false
  | QTo _, MTo => false
  | (QReq _ | QWait _ | QFrom _ | QTo _), _ => true
  | _, _ => false
  end.
Definition NQm (m : mode) (x : nat) (s : env) : Prop := forall q, regm m q = true -> ~ mem s q x.
(** it has been honored *)
Definition done (m : mode) (y : comp) : Prop :=
  match m with
  | MReq => c_requests y = []
  | MWait => c_waits y = []
  | MFrom => c_from y = []
  | MTo => c_to y = []
  | MStill | MHold => False
  end.
Definition Rm (m : mode) (x : nat) (s s' : env) : Prop := NQm m x s -> NQm m x s' /\ (keep x s s' \/ done m (comps s' x)).
Lemma keep_done : forall m x s s', keep x s s' -> done m (comps s x) -> done m (comps s' x).
Proof.
  intros m x s s' K D. pose proof (keep_fields _ _ _ K) as F. cbv zeta in F. destruct F as (_ & _ & _ & _ & _ & _ & F1 & F2 & F3 & F4 & _).
  destruct m; cbn in *; congruence.
Qed.
Lemma Rm_po : forall m x, preorder (Rm m x).
Proof.
  constructor; unfold Rm.
  - auto using keep_refl.
  - intros a b c A B N. destruct (A N) as (N1 & K1). destruct (B N1) as (N2 & K2). split; auto.
    destruct K2 as [K2|K2]; auto. destruct K1 as [K1|K1]; [left; eapply keep_trans; eauto | right; eapply keep_done; eauto].
Qed.

Section V.
  Context (x : nat) (md : mode).
  Let PO := Rm_po md x.
  Local Notation R := (Rm md x).
  Local Notation NQ := (NQm md).
  Lemma R_keep : forall s s', (NQ x s -> NQ x s' /\ keep x s s') -> R s s'.
  Proof. intros s s' H N. destruct (H N). auto. Qed.
  (** from the moment it is honored *)
  Definition Dst (s : env) : Prop := NQ x s /\ done md (comps s x).
  Definition Dn (s s' : env) : Prop := Dst s -> Dst s'.
  Lemma Dn_po : preorder Dn. Proof. constructor; unfold Dn; auto. Qed.
  Lemma Dn_R : forall s s', R s s' -> Dn s s'.
  Proof. intros s s' H (N & D). destruct (H N) as (N1 & [K|K]); split; auto. eapply keep_done; eauto. Qed.
  Lemma fDn : forall A (p : M A), frames R p -> frames Dn p.
  Proof. intros A p F s. apply Dn_R. auto. Qed.
  Lemma Dn_fin : forall s0 s s', R s0 s -> (NQ x s0 -> done md (comps s x)) -> Dn s s' -> R s0 s'.
  Proof. intros s0 s s' H K D N. destruct (H N) as (N1 & _). destruct D as (D1 & D2); [split; auto|]. auto. Qed.
  Lemma dn_comp : forall c f s, (forall y, done md y -> done md (f y)) -> Dn s (m_comp c f s).
  Proof.
    intros c f s H (N & D). split; [exact N|]. rewrite comps_m_comp. destruct (Nat.eqb_spec x c) as [->|]; auto.
  Qed.
  Lemma dn_same : forall s s', qs s' = qs s -> comps s' = comps s -> Dn s s'.
  Proof. intros s s' E1 E2 (N & D). split; [|rewrite E2; auto]. unfold NQm, mem in *. rewrite E1. auto. Qed.
  Ltac dn := fgo Dn_po; try (apply dn_same; reflexivity); try (apply dn_comp; destruct md; cbn; auto; fail).
  Lemma dn_remove : forall c, frames Dn (remove c). Proof. intros. unfold remove. dn. Qed.
  Lemma dn_resched : forall c t p u cap, frames Dn (reschedule c t p u cap).
  Proof. intros. unfold reschedule, push. dn. Qed.

  Lemma v_comp : forall c f s, c <> x -> R s (m_comp c f s).
  Proof.
    intros c f s H. apply R_keep. intros N. split; [exact N|]. unfold keep. rewrite comps_diff by auto. repeat split.
  Qed.
  Lemma v_rsc : forall r f s, R s (m_rsc r f s).
  Proof. intros r f s. apply R_keep. intros N. split; [exact N | repeat split]. Qed.
  Lemma v_same : forall s s', qs s' = qs s -> comps s' = comps s -> evl s' = evl s -> stby s' = stby s -> pend s' = pend s -> R s s'.
  Proof.
    intros s s' E1 E2 E3 E4 E5. apply R_keep. intros N. unfold NQm, mem, keep, evs. rewrite E1, E2, E3, E4, E5. repeat split; auto.
  Qed.
  Lemma v_storeq : forall k f s, R s (m_q (QStore k) f s).
  Proof.
    intros k f s. apply R_keep. intros N. split; [|repeat split]. intros q Q. unfold mem. rewrite qs_m_q.
    destruct (qeqb_spec q (QStore k)) as [->|]; [discriminate|]. apply N; auto.
  Qed.
  Lemma v_q_leave : forall q c, frames R (q_leave q c).
  Proof.
    intros q c. unfold q_leave. fgo PO. apply R_keep. intros N. split; [|repeat split].
    intros q' Q. unfold mem. rewrite qs_m_q. destruct (qeqb_spec q' q) as [->|]; [|apply N; auto].
    intros I. apply (N q Q). change (In x (keys (adel c (qs s q)))) in I. apply keys_adel_in in I. tauto.
  Qed.
  Lemma v_q_enter : forall q c p, c <> x -> frames R (q_enter q c p).
  Proof.
    intros q c p H. unfold q_enter. fgo PO. apply R_keep. intros N. split; [|repeat split].
    intros q' Q. unfold mem. rewrite qs_m_q. destruct (qeqb_spec q' q) as [->|]; [|apply N; auto].
    rewrite in_ins_sorted. intros [->|I]; [congruence | apply (N q Q I)].
  Qed.
  Lemma v_claim_enter : forall r c p, frames R (q_enter (QClaim r) c p).
  Proof.
    intros r c p. unfold q_enter. fgo PO. apply R_keep. intros N. split; [|repeat split].
    intros q' Q. unfold mem. rewrite qs_m_q. destruct (qeqb_spec q' (QClaim r)) as [->|]; [discriminate | apply N; auto].
  Qed.
  Lemma v_setclaims : forall c f s, R s (m_comp c (fun y => w_claims (f y) y) s).
  Proof.
    intros c f s. apply R_keep. intros N. split; [exact N|]. unfold keep. repeat split. rewrite comps_m_comp.
    destruct (Nat.eqb_spec x c) as [->|]; auto.
  Qed.
  Lemma v_remove : forall c, c <> x -> frames R (remove c).
  Proof.
    intros c H s. unfold remove, bind, get, put, setc, stat, when, ret.
    destruct (c_onev (comps s c)); cbn.
    - destruct (ev_del c (evl s)) as [l'|] eqn:E; cbn; [|apply PO].
      apply R_keep. intros N. split; [exact N|]. unfold keep, evs. rewrite comps_diff by auto. cbn. repeat split. eapply KernelU.evs_del; eauto.
    - destruct (steqb _ _); cbn; [|apply PO]. apply R_keep. intros N. split; [exact N|]. unfold keep. cbn.
      rewrite !inl_remove1 by auto. repeat split.
  Qed.
  Lemma v_resched : forall c t p u cap, c <> x -> frames R (reschedule c t p u cap).
  Proof.
    intros c t p u cap H. unfold reschedule, push. fgo PO; auto using v_comp; try (apply v_same; reflexivity).
    apply R_keep. intros N. split; [exact N|]. unfold keep, evs. cbn. rewrite filter_app. cbn.
    destruct (Nat.eqb_spec c x); [congruence|]. rewrite app_nil_r. repeat split.
  Qed.
  Lemma v_leave_req : forall c r, frames R (leave_req c r).
  Proof. intros. unfold leave_req. fgo PO; auto using v_q_leave, v_rsc. Qed.
  Lemma v_check_fail : forall c, c <> x -> frames R (check_fail c).
  Proof. intros c H. unfold check_fail. fgo PO; auto using v_leave_req, v_q_leave, v_comp. Qed.
  Ltac f := fgo PO; auto using v_q_leave, v_q_enter, v_remove, v_check_fail, v_resched, v_comp, v_rsc, v_leave_req.
  Lemma v_activate : forall c a d p u pr kr kw cap, c <> x -> frames R (activate c a d p u pr kr kw cap).
  Proof. intros. unfold activate. f. Qed.
  Lemma v_create : forall c a d p u sk cap, c <> x -> frames R (create c a d p u sk cap).
  Proof. intros. unfold create. f. Qed.
  Lemma v_hold : forall c sp p u i cap, c <> x -> frames R (hold c sp p u i cap).
  Proof. intros. unfold hold, check_notdata. f. Qed.
  Lemma v_passivate : forall c, c <> x -> frames R (passivate c).
  Proof. intros. unfold passivate, check_notdata. f. Qed.
  Lemma v_interrupt : forall c, c <> x -> frames R (interrupt c).
  Proof. intros. unfold interrupt, check_notdata. f. Qed.
  Lemma v_resume : forall c a p u, c <> x -> frames R (resume c a p u).
  Proof. intros. unfold resume. f. Qed.
  Lemma v_standby : forall c, c <> x -> frames R (standby c).
  Proof.
    intros. unfold standby, check_notdata, check_notmain. f. apply R_keep. intros N. split; [exact N|]. unfold keep. cbn.
    unfold inl. rewrite filter_app. cbn. destruct (Nat.eqb_spec x c); [congruence|]. rewrite app_nil_r. repeat split.
  Qed.
  Lemma v_set_remaining : forall c v p u, c <> x -> frames R (set_remaining c v p u).
  Proof. intros. unfold set_remaining. f. Qed.
  Lemma v_claim : forall c r q, frames R (claim c r q).
  Proof. intros. unfold claim, q_prio. f; auto using v_claim_enter. apply v_setclaims. Qed.
  Lemma v_honor_one : forall c r q, frames R (honor_one c r q).
  Proof. intros. unfold honor_one, q_prio. f. Qed.
  Lemma v_honor_all_from : forall c rq, frames R (honor_all_from c rq).
  Proof. induction rq as [|[r q] t IH]; cbn; f; auto using v_honor_one. Qed.
  Lemma v_honor_any_from : forall c rq, frames R (honor_any_from c rq).
  Proof. induction rq as [|[r q] t IH]; cbn; f; auto using v_honor_one. Qed.
  Lemma v_c_try : forall rt c, c <> x -> (forall r, frames R (rt r)) -> frames R (c_try rt c).
  Proof.
    intros rt c H Hrt. unfold c_try, honor_all, honor_any. f; auto using v_honor_all_from, v_honor_any_from, v_claim.
  Qed.
  Lemma fin_wp : forall A (p : M A) s0 s, frames Dn p -> Dst s -> wp p (fun _ s' => R s0 s') (fun _ s' => R s0 s') s.
  Proof. intros A p s0 s F D. eapply wp_conseq; [apply (frames_wp _ _ _ s F) | |]; cbv beta; intros ? s' K N; destruct (K D); auto. Qed.
  Lemma v_wp : forall A (m : M A) s, frames R m -> wp m (fun _ s' => R s s') (fun _ s' => R s s') s.
  Proof. intros. apply frames_wp; auto. Qed.
  (** sequencing: first m, then something that knows more *)
  Lemma v_seq : forall A (m : M A) (Q : A -> env -> Prop) s0 s, frames R m -> R s0 s ->
    (forall a s', R s0 s' -> Q a s') -> wp m Q (fun _ s' => R s0 s') s.
  Proof.
    intros A m Q s0 s F H K. eapply wp_conseq; [apply (v_wp _ m s F) | |]; cbv beta; intros.
    - apply K. eapply PO; eauto.
    - eapply PO; eauto.
  Qed.
  (** a frame fact may assume NQ at the start *)
  Lemma v_from : forall A (m : M A), (forall s, NQ x s -> wp m (fun _ s' => R s s') (fun _ s' => R s s') s) -> frames R m.
  Proof.
    intros A m H s N. specialize (H s N). unfold wp in H. destruct (m s) as [s' [a|e]]; apply (H N).
  Qed.
  Lemma NQ_R : forall s s', NQ x s -> R s s' -> NQ x s'.
  Proof. intros s s' N H. apply (H N). Qed.
  (** x itself is honored *)
  Lemma v_c_try_x : forall rt, md = MReq -> (forall r, frames R (rt r)) -> frames R (c_try rt x).
  Proof.
    intros rt M Hrt. apply v_from. intros s N. unfold c_try. apply wp_bind, wp_stat.
    destruct (steqb _ _); [apply wp_ret, PO|]. apply wp_bind, wp_get, wp_bind.
    apply v_seq; [destruct (c_oneof _); unfold honor_any, honor_all; f; auto using v_honor_all_from, v_honor_any_from | apply PO |].
    intros rh s1 H1. destruct rh as [|r0 rh]; [apply wp_ret; auto|]. apply wp_bind, wp_get, wp_bind, wp_get, wp_bind.
    apply v_seq; auto; [f; auto using v_claim|]. intros _ s2 H2. apply wp_bind, wp_setc. apply fin_wp.
    - pose proof (fun r => fDn _ _ (Hrt r)) as Hd. dn; auto using dn_remove, dn_resched.
    - split; [apply (NQ_R _ _ N H2)|]. rewrite comps_same, M. reflexivity.
  Qed.
  Definition okr (c : nat) : Prop := c <> x \/ md = MReq.
  Lemma v_c_try_ok : forall rt c, okr c -> (forall r, frames R (rt r)) -> frames R (c_try rt c).
  Proof. intros rt c [H|H] Hrt; [apply v_c_try; auto|]. destruct (Nat.eq_dec c x) as [->|]; [apply v_c_try_x; auto | apply v_c_try; auto]. Qed.
  (** loops over the members of a queue *)
  Lemma v_c_trywait : forall c, c <> x -> frames R (c_trywait c).
  Proof. intros. unfold c_trywait, leave_wait. f. Qed.
  Lemma v_c_trywait_x : md = MWait -> frames R (c_trywait x).
  Proof.
    intros M. apply v_from. intros s N. unfold c_trywait. apply wp_bind, wp_stat.
    destruct (steqb _ _); [apply wp_ret, PO|]. apply wp_bind, wp_get. destruct (wait_ok _ _); [|apply wp_ret, PO]. apply wp_bind, wp_get, wp_bind.
    apply v_seq; [unfold leave_wait; f | apply PO |]. intros _ s2 H2. apply wp_bind, wp_setc. apply fin_wp.
    - dn; auto using dn_remove, dn_resched.
    - split; [apply (NQ_R _ _ N H2)|]. rewrite comps_same, M. reflexivity.
  Qed.
  Lemma v_s_trywait : forall l m, (In x l -> md = MWait) -> frames R (s_trywait l m).
  Proof.
    induction l as [|c t IH]; intros m H; cbn [s_trywait]; [f|]. cbn in H.
    assert (F : frames R (c_trywait c)) by (destruct (Nat.eq_dec c x) as [->|]; [apply v_c_trywait_x; auto | apply v_c_trywait; auto]).
    f; auto; apply IH; auto.
  Qed.
  Lemma v_st_trywait : forall st m, md <> MHold -> frames R (st_trywait st m).
  Proof.
    intros st m HW. apply v_from. intros s N. unfold st_trywait. apply wp_bind, wp_get. apply frames_wp.
    apply v_s_trywait. intros I. destruct md; auto; try congruence; exfalso; apply (N (QWait st)); auto.
  Qed.
  Lemma v_wait : forall c a al g p u cap, c <> x -> frames R (wait c a al g p u cap).
  Proof. intros. unfold wait, wait1, check_notdata, check_notmain, fail_time. f; auto using v_c_trywait. Qed.
  Lemma v_wait_for : forall c a al g p u cap, c <> x -> frames R (wait_for c a al g p u cap).
  Proof. intros. unfold wait_for, check_notdata, check_notmain, fail_time. f; auto using v_c_trywait. Qed.
  Lemma v_st_set : forall st v, md <> MHold -> frames R (st_set st v).
  Proof. intros. unfold st_set, set_sval. f; auto using v_st_trywait. apply v_same; reflexivity. Qed.
  Lemma v_st_trigger : forall st v a m, md <> MHold -> frames R (st_trigger st v a m).
  Proof. intros. unfold st_trigger, set_sval. f; auto using v_st_trywait; apply v_same; reflexivity. Qed.
  Definition okf (d : nat) : Prop := d <> x \/ md = MFrom.
  Lemma okf_mem : forall s k c, NQ x s -> mem s (QFrom k) c -> okf c.
  Proof.
    intros s r c N M. destruct (Nat.eq_dec c x) as [->|]; [|left; auto]. right. destruct md; auto; exfalso; apply (N (QFrom r)); auto.
  Qed.
  Definition okt (d : nat) : Prop := d <> x \/ md = MTo.
  Lemma okt_mem : forall s k c, NQ x s -> mem s (QTo k) c -> okt c.
  Proof.
    intros s r c N M. destruct (Nat.eq_dec c x) as [->|]; [|left; auto]. right. destruct md; auto; exfalso; apply (N (QTo r)); auto.
  Qed.
  Lemma v_give : forall d c, okf d -> frames R (give d c).
  Proof.
    intros d c [H|H]; [unfold give; f|]. destruct (Nat.eq_dec d x) as [->|]; [|unfold give; f].
    apply v_from. intros s N. unfold give. apply wp_bind, wp_setc. apply fin_wp.
    - dn; auto using dn_remove, dn_resched.
    - split; [exact N|]. rewrite comps_same, H. reflexivity.
  Qed.
  (** the end of honoring a to_store *)
  Lemma v_stored : forall A w (p : M A), okt w -> frames R p ->
    frames R (setc w (w_to []) ;;; remove w ;;; setc w (w_status Scheduled) ;;; n <- get now ;; reschedule w (Fin n) (Fin 0) false (Some false) ;;; setc w (w_titem None) ;;; p).
  Proof.
    intros A w p K F. assert (D : w <> x \/ (w = x /\ md = MTo)) by (destruct (Nat.eq_dec w x); destruct K; auto). destruct D as [H|(-> & H)]; [f|].
    apply v_from. intros s N. apply wp_bind, wp_setc. apply fin_wp.
    - apply fDn in F. dn; auto using dn_remove, dn_resched.
    - split; [exact N|]. rewrite comps_same, H. reflexivity.
  Qed.
  Lemma v_stored1 : forall w, okt w ->
    frames R (setc w (w_to []) ;;; remove w ;;; setc w (w_status Scheduled) ;;; n <- get now ;; reschedule w (Fin n) (Fin 0) false (Some false) ;;; setc w (w_titem None)).
  Proof.
    intros w K. assert (D : w <> x \/ (w = x /\ md = MTo)) by (destruct (Nat.eq_dec w x); destruct K; auto). destruct D as [H|(-> & H)]; [f|].
    apply v_from. intros s N. apply wp_bind, wp_setc. apply fin_wp.
    - dn; auto using dn_remove, dn_resched.
    - split; [exact N|]. rewrite comps_same, H. reflexivity.
  Qed.
  Lemma v_leave_from : forall d, frames R (leave_from d).
  Proof. intros. unfold leave_from. f. Qed.
  Lemma v_leave_to : forall d, frames R (leave_to d).
  Proof. intros. unfold leave_to. f. Qed.
  Lemma v_set_kmav : forall k v, frames R (set_kmav k v).
  Proof. intros. unfold set_kmav. f. apply v_same; reflexivity. Qed.
  Lemma v_item : forall n, (forall k c w, frames R (item_enter n k c w)) /\ (forall k c, frames R (item_leave n k c)).
  Proof.
    induction n as [|n [IH1 IH2]]; [split; intros; cbn; f|]. split; intros; apply v_from; intros s N.
    - cbn [item_enter]. apply wp_bind, wp_get. destruct (inq _ _); [apply wp_raise, PO|].
      destruct (negb _); [apply wp_raise, PO|]. apply wp_bind, wp_get. destruct (xltb _ _); [apply wp_raise, PO|].
      apply wp_bind. apply v_seq; auto using v_set_kmav; [apply PO|]. intros _ s1 H1.
      apply wp_bind, wp_put. set (s2 := m_q (QStore k) (ins_at c w) s1).
      assert (H2 : R s s2) by (eapply PO; [exact H1 | apply v_storeq]).
      apply wp_bind, wp_get.
      destruct (find _ _) as [d|] eqn:E; [|apply wp_ret; exact H2].
      assert (D : okf d). { apply find_some in E. destruct E as (E & _). eapply okf_mem; [exact (NQ_R _ _ N H2) | exact E]. }
      apply wp_bind. apply v_seq; auto. intros _ s3 H3. apply wp_bind. apply v_seq; auto using v_leave_from. intros _ s4 H4.
      apply v_seq; auto using v_give.
    - cbn [item_leave]. apply wp_bind, wp_get. destruct (negb _); [apply wp_raise, PO|].
      apply wp_bind, wp_put. set (s1 := m_q (QStore k) (adel c) s).
      assert (H1 : R s s1) by (apply v_storeq). apply wp_bind, wp_get. apply wp_bind. apply v_seq; auto using v_set_kmav.
      intros _ s2 H2. destruct (xltb _ _); [|apply wp_ret; auto]. apply wp_bind, wp_get.
      destruct (hd_error (map fst (qs s2 (QTo k)))) as [d|] eqn:E; [|apply wp_ret; auto].
      assert (D : okt d).
      { eapply okt_mem; [exact (NQ_R _ _ N H2)|]. unfold mem. instantiate (1 := k). destruct (map fst (qs s2 (QTo k))); [discriminate|].
        injection E as ->. left; auto. }
      apply wp_bind, wp_get. destruct (c_titem (comps s2 d)) as [i|]; [|apply wp_raise; auto].
      apply wp_bind, wp_get. apply v_seq; auto. apply (fr_bind _ PO); [auto|]. intros _. apply (fr_bind _ PO); [apply v_leave_to|]. intros _. apply v_stored1; auto.
  Qed.
  Lemma v_item_enter : forall n k c w, frames R (item_enter n k c w). Proof. intros. apply v_item. Qed.
  Lemma v_item_leave : forall n k c, frames R (item_leave n k c). Proof. intros. apply v_item. Qed.
  Lemma v_from_store : forall n c ks g key rp fl fp u cap, c <> x -> frames R (from_store n c ks g key rp fl fp u cap).
  Proof. intros. unfold from_store, check_notdata, check_notmain, fail_time. f; auto using v_item_leave. Qed.
  Lemma v_to_try : forall n c i p ks, c <> x -> frames R (to_try n c i p ks).
  Proof. induction ks; intros; cbn; f; auto using v_item_enter. Qed.
  Lemma v_to_store : forall n c ks i rp p fl fp u cap, c <> x -> frames R (to_store n c ks i rp p fl fp u cap).
  Proof. intros. unfold to_store, check_notdata, check_notmain, fail_time. f; auto using v_to_try. Qed.
  Lemma v_rescan_items : forall n k d l, okf d -> frames R (rescan_items n k d l).
  Proof. induction l; intros; cbn; f; auto using v_item_leave, v_leave_from, v_give. Qed.
  Lemma v_rescan : forall n k, frames R (rescan n k).
  Proof.
    intros n k. apply v_from. intros s N. unfold rescan. apply wp_bind, wp_get.
    assert (D : forall d, In d (map fst (qs s (QFrom k))) -> okf d).
    { intros d I. eapply okf_mem; eauto. }
    apply wp_mfor_inv; [apply PO|]. intros d s1 I H1. apply v_seq; auto. f. apply v_rescan_items; auto.
  Qed.
  Lemma v_set_filter : forall n c g, c <> x -> frames R (set_filter n c g).
  Proof. intros. unfold set_filter. f; auto using v_rescan. Qed.
  Lemma v_rescan_to_loop : forall n k l, (forall d, In d l -> okt d) -> frames R (rescan_to_loop n k l).
  Proof.
    induction l as [|d t IH]; intros H; cbn [rescan_to_loop]; [f|]. assert (okt d) by (apply H; left; auto).
    assert (FT : frames R (rescan_to_loop n k t)) by (apply IH; intros; apply H; right; auto).
    apply v_from. intros s N. apply wp_bind, wp_get. destruct (inq _ _); [|apply v_wp; auto]. apply wp_bind, wp_get. destruct (xltb _ _); [|apply wp_ret, PO].
    apply wp_bind. apply v_seq; [apply v_leave_to | apply PO |]. intros _ s1 H1. apply wp_bind, wp_get. destruct (c_titem _); [|apply wp_raise; auto].
    apply wp_bind, wp_get, wp_bind. apply v_seq; auto using v_item_enter. intros _ s2 H2. apply v_seq; auto. apply v_stored; auto.
  Qed.
  Lemma v_st_set_cap : forall n k cap, frames R (st_set_cap n k cap).
  Proof.
    intros n k cap. apply v_from. intros s N. unfold st_set_cap. apply wp_bind, wp_get. apply wp_bind, wp_put.
    apply wp_bind, wp_get. apply wp_bind. apply v_seq; auto using v_set_kmav; [apply v_same; reflexivity|].
    intros _ s1 H1. apply wp_when; intros _; auto. apply wp_bind, wp_get. apply v_seq; auto.
    apply v_rescan_to_loop. intros d I. eapply okt_mem; [exact (NQ_R _ _ N H1) | exact I].
  Qed.
  Lemma v_run : forall sp p u cap, main <> x -> frames R (run sp p u cap).
  Proof. intros. unfold run. f; apply v_same; reflexivity. Qed.
  Definition sets (o : op) : bool := match o with OSet _ _ | OTrigger _ _ _ _ => true | _ => false end.
  Lemma v_still : forall n o s, (sets o = true -> md <> MHold) -> still_op o = true -> NQ x s -> ~ directed x s o ->
    wp (exec n o) (fun _ s' => R s s') (fun _ s' => R s s') s.
  Proof.
    intros n o s HW NS N D.
    destruct o; try discriminate; cbn [exec]; cbn [directed] in D;
      try (apply frames_wp; auto using v_create, v_activate, v_hold, v_passivate, v_interrupt, v_resume, v_standby,
        v_set_remaining, v_wait, v_wait_for, v_st_set, v_st_trigger, v_from_store, v_to_store,
        v_item_enter, v_item_leave, v_st_set_cap, v_rescan, v_set_filter, v_run; f; fail).
    apply frames_wp. unfold reset_now. f. apply v_same; reflexivity.
  Qed.
  Definition notx (m : option (nat * xq)) : Prop := match m with Some (c, _) => okr c | None => True end.
  Context (HS : md <> MStill).
  Lemma okr_mem : forall s r c, NQ x s -> mem s (QReq r) c -> okr c.
  Proof.
    intros s r c N M. destruct (Nat.eq_dec c x) as [->|]; [|left; auto]. right. destruct md; auto; try (exfalso; apply (N (QReq r)); auto; fail).
  Qed.
  Lemma v_rloop : forall rt r an first p1, (forall r, frames R (rt r)) -> forall n mx s0 s, NQ x s0 -> R s0 s -> notx mx ->
    wp (rloop (c_try rt) n r an first p1 mx) (fun _ s' => R s0 s') (fun _ s' => R s0 s') s.
  Proof.
    intros rt r an first p1 Hrt. induction n as [|n IH]; intros mx s0 s N0 H NX; cbn [rloop]; destruct mx as [[c p]|];
      try (apply wp_ret; exact H); [apply wp_raise; exact H|].
    apply wp_bind, wp_get. destruct (_ && _); [apply wp_ret; auto|]. destruct (_ && _); [apply wp_ret; auto|].
    destruct (_ && _); [apply wp_ret; auto|]. apply wp_bind, wp_get. destruct (inq _ _); [|apply wp_raise; auto].
    apply wp_bind. apply v_seq; auto; [apply v_c_try_ok; auto|]. intros b s1 H1. apply wp_bind, wp_get. apply IH; auto.
    destruct (H N0) as (N & _). destruct (H1 N0) as (N1 & _).
    destruct (_ && _).
    - unfold notx. destruct (hd_error (qs s1 (QReq r))) as [[d pd]|] eqn:E; auto. apply mem_hd in E.
      apply (okr_mem s1 r); auto.
    - unfold notx. destruct (qnext c (qs s (QReq r))) as [[d pd]|] eqn:E; auto. apply mem_qnext in E.
      apply (okr_mem s r); auto.
  Qed.
  Lemma v_r_try : forall n r, frames R (r_try n r).
  Proof.
    induction n as [|n IH]; intros r; cbn [r_try]; [f|]. apply v_from. intros s N.
    assert (NX : notx (hd_error (qs s (QReq r)))).
    { unfold notx. destruct (hd_error (qs s (QReq r))) as [[d pd]|] eqn:E; auto. apply mem_hd in E.
      apply (okr_mem s r); auto. }
    apply wp_bind, wp_get. apply wp_bind, wp_get. destruct (r_anon (rsc s r)).
    - apply wp_bind, wp_get. destruct (r_trying (rsc s r)); [apply wp_ret, PO|]. apply wp_bind, wp_setr.
      apply wp_bind. eapply wp_conseq; [apply v_rloop with (s0 := s); auto using v_rsc | |]; cbv beta; auto.
    - apply v_rloop; auto. apply PO.
  Qed.
  Lemma v_release1 : forall n c r q b, frames R (release1 n c r q b).
  Proof. intros. unfold release1. f; auto using v_r_try; apply v_setclaims. Qed.
  Lemma v_release : forall n c a, frames R (release n c a).
  Proof. intros. unfold release. f; auto using v_release1. Qed.
  Lemma v_release_claimers : forall g n r mx, frames R (release_claimers g n r mx).
  Proof. induction n; intros r mx; cbn [release_claimers]; destruct mx as [[c p]|]; f; apply v_release. Qed.
  Lemma v_res_release : forall n r q, frames R (res_release n r q).
  Proof. intros. unfold res_release. f; auto using v_r_try, v_release_claimers. Qed.
  Lemma v_set_cap : forall n r q, frames R (set_cap n r q).
  Proof. intros. unfold set_cap. f; auto using v_r_try. Qed.
  Lemma v_cancel : forall n c, c <> x -> frames R (cancel n c).
  Proof. intros. unfold cancel. f; auto using v_release1. Qed.
  Lemma v_terminate : forall n c, c <> x -> frames R (terminate n c).
  Proof. intros. unfold terminate. f; auto using v_release1. Qed.
  Lemma v_continue : forall n c, c <> x -> frames R (continue n c).
  Proof. intros. unfold continue. f; auto using v_r_try. Qed.
  (** request: other components may be bumped *)
  Lemma v_request1_multi : forall n c a, c <> x -> frames R (request1 n c true a).
  Proof.
    intros n c [[r q] p] H. apply v_from. intros s N. unfold request1. apply wp_bind, wp_get.
    destruct (r_preempt (rsc s r)); [apply wp_raise, PO|]. cbn [andb when]. apply v_seq; [|apply PO | auto]. f.
  Qed.
  Lemma v_request1 : forall n c a s0 s, c <> x -> NQ x s0 -> R s0 s ->
    (r_preempt (rsc s (fst (fst a))) = true -> ~ mem s (QClaim (fst (fst a))) x) ->
    wp (request1 n c false a) (fun _ s' => R s0 s') (fun _ s' => R s0 s') s.
  Proof.
    intros n c [[r q] p] s0 s H N HR B. cbn [fst] in B. unfold request1. apply wp_bind, wp_get.
    apply wp_bind, wp_when; [intros _; apply wp_raise; auto | intros _].
    apply wp_bind, wp_when; [intros _; apply wp_raise; auto | intros _].
    apply wp_bind, wp_setc. match goal with |- wp _ _ _ (m_comp c ?g s) => set (s1 := m_comp c g s) end.
    assert (H1 : R s0 s1) by (eapply PO; [exact HR | apply v_comp; auto]).
    apply wp_bind.
    assert (F : frames (fun a b => R a b /\ Rcl a b) (q_enter (QReq r) c p)).
    { intros z. split; [apply v_q_enter; auto | apply cl_q_enter; discriminate]. }
    eapply wp_conseq; [apply (frames_wp _ _ _ s1 F) | |]; cbv beta.
    2: { intros _ s2 (E & _). eapply PO; eauto. }
    intros _ s2 (E & CL). assert (H2 : R s0 s2) by (eapply PO; eauto).
    apply wp_when; auto. intros P. apply wp_bind, wp_get. apply wp_bind, wp_get.
    destruct (bump_candidates _ _ _ _) as [cs av'] eqn:EB. apply wp_when; auto. intros _.
    apply wp_mfor_inv; auto. intros d s3 I H3.
    assert (D : d <> x).
    { intros ->. apply B; [auto|]. unfold mem. destruct (CL r) as (C1 & _). change (qs s (QClaim r)) with (qs s1 (QClaim r)). rewrite <- C1.
      apply in_rev. rewrite <- map_rev. eapply in_bump. rewrite EB. exact I. }
    apply v_seq; auto. f; auto using v_release1, v_activate.
  Qed.
  Lemma v_request : forall n c args oo fl p u cap s, c <> x -> NQ x s -> ~ bumps x s (ORequest c args oo fl p u cap) ->
    wp (request n c args oo fl p u cap) (fun _ s' => R s s') (fun _ s' => R s s') s.
  Proof.
    intros n c args oo fl p u cap s H N B. unfold request.
    set (R2 := fun a b => R a b /\ Rcl a b).
    assert (PO2 : preorder R2).
    { constructor; unfold R2; [split; [apply PO | apply Rcl_po]|]. intros a b d (A1 & A2) (B1 & B2).
      split; [eapply PO; eauto | eapply Rcl_po; eauto]. }
    assert (Sq : forall A (m : M A) (Q : A -> env -> Prop) s1, frames R2 m -> R2 s s1 -> (forall a s', R2 s s' -> Q a s') ->
                 wp m Q (fun _ s' => R s s') s1).
    { intros A m Q s1 F HR K. eapply wp_conseq; [apply (frames_wp _ _ _ s1 F) | |]; cbv beta; intros.
      - apply K. eapply PO2; eauto.
      - assert (R2 s s') by (eapply PO2; eauto). apply H1. }
    assert (SC : forall f, frames R2 (setc c f)).
    { intros g. fgo PO2. split; [apply v_comp; auto | apply cl_same; reflexivity]. }
    apply wp_bind. apply Sq; auto; [apply PO2|]. intros _ s1 H1. apply wp_bind, wp_stat.
    apply wp_bind. apply Sq; auto.
    { assert (frames R2 (remove c)) by (intros z; split; [apply v_remove; auto | apply cl_remove]).
      assert (frames R2 (check_fail c)) by (intros z; split; [apply v_check_fail; auto | apply cl_check_fail]).
      unfold check_notdata, check_notmain. fgo PO2; auto. }
    intros _ s2 H2. apply wp_bind. apply Sq; auto. { unfold fail_time. fgo PO2. }
    intros t s3 H3. apply wp_bind. apply Sq; auto. intros _ s4 H4.
    destruct args as [|a l].
    { apply wp_bind, wp_get. apply v_seq; auto; [apply v_resched; auto | apply H4]. }
    apply wp_bind.
    assert (K : wp (mfor (a :: l) (request1 n c (1 <? length (a :: l))%nat)) (fun _ s' => R s s') (fun _ s' => R s s') s4).
    { destruct l as [|a2 l].
      - cbn [mfor length]. apply wp_bind. eapply wp_conseq; [apply v_request1 with (s0 := s); auto; [apply H4|] | |]; cbv beta; auto.
        intros P I. apply B. destruct a as [[r q] pp]. cbn [fst] in *. exists r, q, pp. destruct H4 as (_ & C4). destruct (C4 r) as (C5 & C6).
        split; [left; auto|]. split; [congruence|]. unfold mem in *. rewrite <- C5. auto.
      - change (1 <? length (a :: a2 :: l))%nat with true. apply v_seq; auto; [|apply H4]. apply (fr_mfor _ PO). intros. apply v_request1_multi; auto. }
    eapply wp_conseq; [exact K | |]; cbv beta; auto. intros _ s5 H5. apply v_seq; auto.
    f. apply v_c_try; auto using v_r_try.
  Qed.

  Lemma v_exec : forall n o s, (sets o = true -> md <> MHold) -> o <> OStep -> NQ x s -> ~ directed x s o ->
    wp (exec n o) (fun _ s' => R s s') (fun _ s' => R s s') s.
  Proof.
    intros n o s HW NS N D.
    destruct o; try congruence; cbn [exec]; cbn [directed] in D;
      try (apply frames_wp; auto using v_create, v_activate, v_hold, v_passivate, v_interrupt, v_resume, v_cancel, v_standby,
        v_set_remaining, v_release, v_res_release, v_set_cap, v_wait, v_wait_for, v_st_set, v_st_trigger, v_from_store, v_to_store,
        v_item_enter, v_item_leave, v_st_set_cap, v_rescan, v_set_filter, v_run; f; fail).
    - apply v_request; auto.
    - apply frames_wp. unfold reset_now. f. apply v_same; reflexivity.
    - apply wp_bind, wp_get. apply frames_wp. apply v_terminate; auto.
  Qed.
End V.

