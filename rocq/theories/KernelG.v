(** A component waits in at most one way: for resources, for states, for an item of a store or for space in a store. *)
From Coq Require Import QArith Lqa List Bool Arith ZArith Lia.
From Verif Require Import Base Kernel Wp KernelE KernelL KernelX KernelT KernelU KernelR KernelQ KernelP.
Import ListNotations.
Open Scope Q_scope.

Inductive fld := FR | FW | FF | FT.
Definition g (k : fld) (y : comp) : list nat :=
  match k with FR => keys (c_requests y) | FW => map fst (c_waits y) | FF => c_from y | FT => c_to y end.
Definition OneK (s : env) : Prop := forall d k k', g k (comps s d) <> [] -> g k' (comps s d) <> [] -> k = k'.
(** except possibly for [ex], every list stays as it is or becomes empty *)
Definition K (ex : option (nat * fld)) (s s' : env) : Prop :=
  forall d k, ex = Some (d, k) \/ g k (comps s' d) = g k (comps s d) \/ g k (comps s' d) = [].
Lemma K_po : forall ex, preorder (K ex).
Proof.
  constructor; unfold K; [auto|]. intros a b c A B d k. destruct (A d k) as [A1|[A1|A1]]; auto; destruct (B d k) as [B1|[B1|B1]]; auto; right; [left | right]; congruence.
Qed.
Lemma K_same : forall ex s s', comps s' = comps s -> K ex s s'. Proof. intros ex s s' E d k. rewrite E. auto. Qed.
Lemma K_comp : forall ex c f s, (forall k, ex = Some (c, k) \/ (forall y, g k (f y) = g k y) \/ (forall y, g k (f y) = [])) -> K ex s (m_comp c f s).
Proof.
  intros ex c f s H d k. rewrite comps_m_comp. destruct (Nat.eqb_spec d c) as [->|]; auto. destruct (H k) as [E|[E|E]]; rewrite ?E; auto.
Qed.
Lemma K_weak : forall ex s s', K None s s' -> K ex s s'.
Proof. intros ex s s' H d k. destruct (H d k) as [E|E]; [discriminate | auto]. Qed.
Lemma K_frame : forall A (m : M A) ex, frames (K None) m -> frames (K ex) m. Proof. intros A m ex F s. apply K_weak, F. Qed.
Ltac fk ex := fgo (K_po ex); try (apply K_comp; intros []; cbn; auto; fail); try (apply K_same; reflexivity).

Section G.
  Let PO := K_po None.
  Local Notation R := (K None).
  Lemma k_q_leave : forall q c, frames R (q_leave q c). Proof. intros. unfold q_leave. fk (@None (nat * fld)). Qed.
  Lemma k_q_enter : forall q c p, frames R (q_enter q c p). Proof. intros. unfold q_enter. fk (@None (nat * fld)). Qed.
  Lemma k_remove : forall c, frames R (remove c). Proof. intros. unfold remove. fk (@None (nat * fld)). Qed.
  Lemma k_resched : forall c t p u cap, frames R (reschedule c t p u cap). Proof. intros. unfold reschedule, push. fk (@None (nat * fld)). Qed.
  Lemma k_leave_req : forall c r, frames R (leave_req c r). Proof. intros. unfold leave_req. fk (@None (nat * fld)); auto using k_q_leave. Qed.
  Lemma k_check_fail : forall c, frames R (check_fail c). Proof. intros. unfold check_fail. fk (@None (nat * fld)); auto using k_q_leave, k_leave_req. Qed.
  Ltac f := fk (@None (nat * fld)); auto using k_q_leave, k_q_enter, k_remove, k_check_fail, k_resched, k_leave_req.
  Lemma k_activate : forall c a d p u pr kr kw cap, frames R (activate c a d p u pr kr kw cap). Proof. intros. unfold activate. f. Qed.
  Lemma k_create : forall c a d p u sk cap, frames R (create c a d p u sk cap). Proof. intros. unfold create. f. Qed.
  Lemma k_hold : forall c sp p u i cap, frames R (hold c sp p u i cap). Proof. intros. unfold hold, check_notdata. f. Qed.
  Lemma k_passivate : forall c, frames R (passivate c). Proof. intros. unfold passivate, check_notdata. f. Qed.
  Lemma k_interrupt : forall c, frames R (interrupt c). Proof. intros. unfold interrupt, check_notdata. f. Qed.
  Lemma k_resume : forall c a p u, frames R (resume c a p u). Proof. intros. unfold resume. f. Qed.
  Lemma k_standby : forall c, frames R (standby c). Proof. intros. unfold standby, check_notdata, check_notmain. f. Qed.
  Lemma k_set_remaining : forall c v p u, frames R (set_remaining c v p u). Proof. intros. unfold set_remaining. f. Qed.
  Lemma k_claim : forall c r q, frames R (claim c r q). Proof. intros. unfold claim, q_prio. f. Qed.
  Lemma k_honor_one : forall c r q, frames R (honor_one c r q). Proof. intros. unfold honor_one, q_prio. f. Qed.
  Lemma k_honor_all_from : forall c rq, frames R (honor_all_from c rq). Proof. induction rq as [|[r q] t IH]; cbn; f; auto using k_honor_one. Qed.
  Lemma k_honor_any_from : forall c rq, frames R (honor_any_from c rq). Proof. induction rq as [|[r q] t IH]; cbn; f; auto using k_honor_one. Qed.
  Lemma k_c_try : forall rt c, (forall r, frames R (rt r)) -> frames R (c_try rt c).
  Proof. intros rt c Hrt. unfold c_try, honor_all, honor_any. f; auto using k_honor_all_from, k_honor_any_from, k_claim. Qed.
  Lemma k_rloop : forall rt r an first p1, (forall r, frames R (rt r)) -> forall n mx, frames R (rloop (c_try rt) n r an first p1 mx).
  Proof. intros rt r an first p1 Hrt. induction n as [|n IH]; intros mx; cbn [rloop]; destruct mx as [[c p]|]; f; auto using k_c_try. Qed.
  Lemma k_r_try : forall n r, frames R (r_try n r).
  Proof. induction n as [|n IH]; intros r; cbn [r_try]; f; auto using k_rloop. Qed.
  Lemma k_release1 : forall n c r q b, frames R (release1 n c r q b). Proof. intros. unfold release1. f; auto using k_r_try. Qed.
  Lemma k_release : forall n c a, frames R (release n c a). Proof. intros. unfold release. f; auto using k_release1. Qed.
  Lemma k_release_claimers : forall z n r mx, frames R (release_claimers z n r mx).
  Proof. induction n; intros r mx; cbn [release_claimers]; destruct mx as [[c p]|]; f; apply k_release. Qed.
  Lemma k_res_release : forall n r q, frames R (res_release n r q). Proof. intros. unfold res_release. f; auto using k_r_try, k_release_claimers. Qed.
  Lemma k_set_cap : forall n r q, frames R (set_cap n r q). Proof. intros. unfold set_cap. f; auto using k_r_try. Qed.
  Lemma k_cancel : forall n c, frames R (cancel n c). Proof. intros. unfold cancel. f; auto using k_release1. Qed.
  Lemma k_terminate : forall n c, frames R (terminate n c). Proof. intros. unfold terminate. f; auto using k_release1. Qed.
  Lemma k_continue : forall n c, frames R (continue n c). Proof. intros. unfold continue. f; auto using k_r_try. Qed.
  Lemma k_step : forall n, frames R (step n). Proof. intros. unfold step, step_event. f; auto using k_continue. Qed.
  Lemma k_c_trywait : forall c, frames R (c_trywait c). Proof. intros. unfold c_trywait, leave_wait. f. Qed.
  Lemma k_s_trywait : forall l m, frames R (s_trywait l m). Proof. induction l as [|c t IH]; intros m; cbn [s_trywait]; f; auto using k_c_trywait. Qed.
  Lemma k_st_trywait : forall st m, frames R (st_trywait st m). Proof. intros. unfold st_trywait. f; auto using k_s_trywait. Qed.
  Lemma k_st_set : forall st v, frames R (st_set st v). Proof. intros. unfold st_set, set_sval. f; auto using k_st_trywait. Qed.
  Lemma k_st_trigger : forall st v a m, frames R (st_trigger st v a m). Proof. intros. unfold st_trigger, set_sval. f; auto using k_st_trywait. Qed.
  Lemma k_give : forall d c, frames R (give d c). Proof. intros. unfold give. f. Qed.
  Lemma k_leave_from : forall d, frames R (leave_from d). Proof. intros. unfold leave_from. f. Qed.
  Lemma k_leave_to : forall d, frames R (leave_to d). Proof. intros. unfold leave_to. f. Qed.
  Lemma k_item : forall n, (forall k c w, frames R (item_enter n k c w)) /\ (forall k c, frames R (item_leave n k c)).
  Proof. induction n as [|n [IH1 IH2]]; split; intros; cbn [item_enter item_leave]; unfold set_kmav; f; auto using k_leave_from, k_leave_to, k_give. Qed.
  Lemma k_item_enter : forall n k c w, frames R (item_enter n k c w). Proof. intros. apply k_item. Qed.
  Lemma k_item_leave : forall n k c, frames R (item_leave n k c). Proof. intros. apply k_item. Qed.
  Lemma k_to_try : forall n c i p ks, frames R (to_try n c i p ks). Proof. induction ks; intros; cbn; f; auto using k_item_enter. Qed.
  Lemma k_rescan_items : forall n k d l, frames R (rescan_items n k d l). Proof. induction l; intros; cbn; f; auto using k_item_leave, k_leave_from, k_give. Qed.
  Lemma k_rescan : forall n k, frames R (rescan n k). Proof. intros n k. unfold rescan. f; auto using k_rescan_items. Qed.
  Lemma k_set_filter : forall n c h, frames R (set_filter n c h). Proof. intros. unfold set_filter. f; auto using k_rescan. Qed.
  Lemma k_rescan_to_loop : forall n k l, frames R (rescan_to_loop n k l). Proof. induction l as [|d t IH]; cbn [rescan_to_loop]; f; auto using k_item_enter, k_leave_to. Qed.
  Lemma k_st_set_cap : forall n k cap, frames R (st_set_cap n k cap). Proof. intros n k cap. unfold st_set_cap, set_kmav. f; auto using k_rescan_to_loop. Qed.
  Lemma k_run : forall sp p u cap, frames R (run sp p u cap). Proof. intros. unfold run. f. Qed.
  Definition asks (o : op) : option nat :=
    match o with
    | ORequest c _ _ _ _ _ _ | OWait c _ _ _ _ _ _ | OWaitFor c _ _ _ _ _ _ | OFromStore c _ _ _ _ _ _ _ _ | OToStore c _ _ _ _ _ _ _ _ => Some c
    | _ => None
    end.
  Lemma k_exec : forall n o, asks o = None -> frames R (exec n o).
  Proof.
    intros n o H. destruct o; try discriminate; cbn [exec]; auto using k_create, k_activate, k_hold, k_passivate, k_interrupt, k_resume, k_cancel, k_standby,
        k_set_remaining, k_release, k_res_release, k_set_cap, k_st_set, k_st_trigger, k_item_enter, k_item_leave, k_st_set_cap, k_rescan, k_set_filter, k_run, k_step; unfold reset_now; f.
    apply k_terminate.
  Qed.
End G.

Lemma OneK_K : forall s s', OneK s -> K None s s' -> OneK s'.
Proof.
  intros s s' O H d k k' A B. apply (O d).
  - destruct (H d k) as [E|[E|E]]; [discriminate | congruence | congruence].
  - destruct (H d k') as [E|[E|E]]; [discriminate | congruence | congruence].
Qed.
Lemma OneK_free : forall s s' c k, OneK s -> free c s -> K (Some (c, k)) s s' -> OneK s'.
Proof.
  intros s s' c k0 O (F0 & F1 & F2 & F3) H d k k' A B. destruct (Nat.eq_dec d c) as [->|N].
  - assert (Z : forall k, g k (comps s' c) <> [] -> k = k0).
    { intros k1 X. destruct (H c k1) as [E|[E|E]]; [congruence| |congruence]. exfalso. apply X. rewrite E. unfold noreq in F0.
      destruct k1; cbn; [rewrite F0 | rewrite F1 | rewrite F2 | rewrite F3]; reflexivity. }
    rewrite (Z k A), (Z k' B). auto.
  - apply (O d).
    + destruct (H d k) as [E|[E|E]]; congruence.
    + destruct (H d k') as [E|[E|E]]; congruence.
Qed.
Lemma OneK_wp : forall A (m : M A) s, OneK s -> frames (K None) m -> wp m (fun _ s' => OneK s') (fun _ s' => OneK s') s.
Proof. intros A m s O F. eapply wp_conseq; [apply (frames_wp _ _ _ s F) | |]; cbv beta; intros; eapply OneK_K; eauto. Qed.
Lemma OneK_rest : forall A (m : M A) c k s, OneK s -> free c s -> frames (K (Some (c, k))) m -> wp m (fun _ s' => OneK s') (fun _ s' => OneK s') s.
Proof. intros A m c k s O G F. eapply wp_conseq; [apply (frames_wp _ _ _ s F) | |]; cbv beta; intros; eapply OneK_free; eauto. Qed.
(** the part of a call before it registers its component *)
Lemma OneK_pre : forall c b (post : M unit) k s, OneK s -> (b = false -> free c s) -> frames (K (Some (c, k))) post ->
  wp (when b (check_notdata c ;;; check_notmain c ;;; remove c ;;; check_fail c) ;;; post) (fun _ s' => OneK s') (fun _ s' => OneK s') s.
Proof.
  intros c b post k s O F P. apply wp_bind. destruct b; cbn [when].
  2: { apply wp_ret. eapply OneK_rest; eauto. }
  apply wp_bind. eapply wp_conseq; [apply (OneK_wp _ (check_notdata c) s O); unfold check_notdata; fk (@None (nat * fld)) | cbv beta | auto]. intros _ s1 O1.
  apply wp_bind. eapply wp_conseq; [apply (OneK_wp _ (check_notmain c) s1 O1); unfold check_notmain; fk (@None (nat * fld)) | cbv beta | auto]. intros _ s2 O2.
  apply wp_bind. eapply wp_conseq; [apply (OneK_wp _ (remove c) s2 O2); apply k_remove | cbv beta | auto]. intros _ s3 O3.
  assert (W : wp (check_fail c) (fun _ s' => OneK s' /\ free c s') (fun _ s' => OneK s') s3).
  { pose proof (OneK_wp _ (check_fail c) s3 O3 (k_check_fail c)) as W1. pose proof (w_check_fail_free c s3) as W2. unfold wp in *.
    destruct (check_fail c s3) as [s4 [a|e]]; auto. }
  eapply wp_conseq; [exact W | cbv beta | auto]. intros _ s4 (O4 & F4). eapply OneK_rest; eauto.
Qed.
Section Ask.
  Context (c : nat).
  Lemma k_request1 : forall n b a, frames (K (Some (c, FR))) (request1 n c b a).
  Proof.
    intros n b ((r, q), p). unfold request1. fk (Some (c, FR)); try (apply K_frame; auto using k_q_enter, k_release1, k_activate; fail).
  Qed.
  Lemma k_wait1 : forall a, frames (K (Some (c, FW))) (wait1 c a).
  Proof. intros ((st, h), p). unfold wait1. fk (Some (c, FW)); try (apply K_frame; auto using k_q_enter; fail). Qed.
End Ask.
Lemma OneK_asks : forall n o c s, EL s -> RI s -> OneK s -> asks o = Some c -> wp (exec n o) (fun _ s' => OneK s') (fun _ s' => OneK s') s.
Proof.
  intros n o c s L R O A.
  assert (FC : forall s1, EL s1 -> RI s1 -> negb (steqb (c_status (comps s1 c)) Current) = false -> free c s1).
  { intros s1 L1 R1 H. apply negb_false_iff, steqb_iff in H. apply free_idle; auto. rewrite H. auto with idle. }
  assert (KF : forall ex f, frames (K ex) (fail_time f)) by (intros; unfold fail_time; fk ex).
  assert (KT : forall ex m r, frames (K ex) (r_try m r)) by (intros; apply K_frame, k_r_try).
  destruct o; try discriminate; injection A as <-; cbn [exec].
  - unfold request. apply wp_bind, wp_setc. set (s1 := m_comp c0 (w_oneof oneof) s).
    assert (O1 : OneK s1) by (eapply OneK_K; [exact O | apply K_comp; intros []; cbn; auto]).
    apply wp_bind, wp_stat. apply OneK_pre with (k := FR); auto.
    + intros H. apply FC in H; [auto | |].
      * intros d. unfold s1. rewrite comps_m_comp. destruct (Nat.eqb_spec d c0) as [->|]; apply L.
      * intros d. unfold s1. rewrite comps_m_comp. destruct (Nat.eqb_spec d c0) as [->|]; apply R.
    + fk (Some (c0, FR)); auto using k_request1; try (apply K_frame; auto using k_resched, k_c_try, k_r_try; fail).
  - unfold wait. apply wp_bind, wp_setc. set (s1 := m_comp c0 (w_cond None) s).
    assert (O1 : OneK s1) by (eapply OneK_K; [exact O | apply K_comp; intros []; cbn; auto]).
    apply wp_bind, wp_stat. apply OneK_pre with (k := FW); auto.
    + intros H. apply FC in H; [auto | |].
      * intros d. unfold s1. rewrite comps_m_comp. destruct (Nat.eqb_spec d c0) as [->|]; apply L.
      * intros d. unfold s1. rewrite comps_m_comp. destruct (Nat.eqb_spec d c0) as [->|]; apply R.
    + fk (Some (c0, FW)); auto using k_wait1; try (apply K_frame; auto using k_resched, k_c_trywait; fail).
  - unfold wait_for. apply wp_bind, wp_stat. apply OneK_pre with (k := FW); auto.
    fk (Some (c0, FW)); try (apply K_frame; auto using k_resched, k_c_trywait, k_q_enter; fail).
  - unfold from_store. apply wp_bind, wp_when; intros _; [apply wp_raise; auto|]. apply wp_bind, wp_stat. apply OneK_pre with (k := FF); auto.
    fk (Some (c0, FF)); try (apply K_frame; auto using k_resched, k_item_leave, k_q_enter, k_remove; fail).
  - unfold to_store. apply wp_bind, wp_when; intros _; [apply wp_raise; auto|]. apply wp_bind, wp_stat. apply OneK_pre with (k := FT); auto.
    fk (Some (c0, FT)); try (apply K_frame; auto using k_resched, k_to_try, k_q_enter; fail).
Qed.
Lemma OneK_exec : forall n o s s' r, EL s -> RI s -> OneK s -> exec n o s = (s', r) -> OneK s'.
Proof.
  intros n o s s' r L R O E. destruct (asks o) as [c|] eqn:A.
  - pose proof (OneK_asks n o c s L R O A) as W. unfold wp in W. rewrite E in W. destruct r; auto.
  - pose proof (k_exec n o A s) as W. rewrite E in W. eapply OneK_K; eauto.
Qed.
