(** Stores: capacity, hand-over of items, conservation, termination. *)
From Coq Require Import QArith Lqa List Bool Arith ZArith Lia Permutation.
From Verif Require Import Base Kernel Wp KernelE KernelL KernelX KernelT KernelU KernelR KernelQ KernelP KernelA KernelC KernelG KernelV KernelW KernelY.
Import ListNotations.
Open Scope Q_scope.

(** * Capacity *)
(** the available quantity is the capacity minus the number of items *)
Definition AV (s : env) : Prop := forall k, xeq (kmav s k) (xsubq (kcap s k) (xlen (qs s (QStore k)))).
Definition capok (s : env) (k : nat) : Prop := xle (Fin (xlen (qs s (QStore k)))) (kcap s k).
(** nothing came into store [k], or its contents is within the capacity *)
Definition noover (s s' : env) (k : nat) : Prop := (exists f, qs s' (QStore k) = filter f (qs s (QStore k))) \/ capok s' k.
Definition SR (s s' : env) : Prop := AV s -> AV s' /\ kcap s' = kcap s /\ forall k, noover s s' k.
Lemma filter_and : forall A (f h : A -> bool) l, filter f (filter h l) = filter (fun x => h x && f x) l.
Proof. induction l as [|a t IH]; cbn; auto. destruct (h a); cbn; [destruct (f a)|]; rewrite ?IH; auto. Qed.
Lemma filter_tt : forall A (l : list A), filter (fun _ => true) l = l.
Proof. induction l as [|a t IH]; cbn; congruence. Qed.
Lemma filter_len : forall A (f : A -> bool) l, (length (filter f l) <= length l)%nat.
Proof. induction l as [|a t IH]; cbn; auto. destruct (f a); cbn; lia. Qed.
Lemma xlen_le : forall A B (a : list A) (b : list B), (length a <= length b)%nat -> xlen a <= xlen b.
Proof. intros A B a b H. unfold xlen. rewrite <- Zle_Qle. lia. Qed.
Lemma noover_trans : forall a b c k, kcap c = kcap b -> noover a b k -> noover b c k -> noover a c k.
Proof.
  intros a b c k E [(f & A)|A] [(h & B)|B]; try (right; assumption).
  - left. exists (fun x => f x && h x). rewrite B, A. apply filter_and.
  - right. unfold capok in *. rewrite E. eapply xle_trans; [|exact A]. cbn. apply xlen_le. rewrite B. apply filter_len.
Qed.
Lemma noover_same : forall s s' k, qs s' (QStore k) = qs s (QStore k) -> noover s s' k.
Proof. intros s s' k E. left. exists (fun _ => true). rewrite filter_tt. auto. Qed.
Lemma SR_po : preorder SR.
Proof.
  constructor; unfold SR.
  - intros s A. split; [auto | split; auto using noover_same].
  - intros a b c H K A. destruct (H A) as (A1 & B1 & C1). destruct (K A1) as (A2 & B2 & C2). split; auto. split; [congruence|]. intros k. eapply noover_trans; eauto.
Qed.
Lemma SR_quiet : forall s s', kmav s' = kmav s -> kcap s' = kcap s -> (forall k, qs s' (QStore k) = qs s (QStore k)) -> SR s s'.
Proof. intros s s' A B C V. split; [|split; auto using noover_same]. intros k. rewrite A, B, C. apply V. Qed.
Lemma SR_q : forall q f s, reg q = true -> SR s (m_q q f s).
Proof. intros q f s H. apply SR_quiet; auto. intros k. rewrite qs_m_q. destruct q; try discriminate; reflexivity. Qed.
Lemma length_ins_tail : forall c p l, length (ins_tail c p l) = S (length l).
Proof. induction l as [|a t IH]; cbn [ins_tail]; auto. destruct (forallb _ _); cbn; auto. Qed.
Lemma length_ins_at : forall c w l, pos_ok w l = true -> length (ins_at c w l) = S (length l).
Proof.
  intros c w l H. destruct w as [p| | |x|x]; cbn [ins_at pos_ok] in *.
  - destruct l as [|a t]; cbn [ins_sorted]; auto. destruct (xltb p (snd a)); auto using length_ins_tail.
  - rewrite app_length. cbn. lia.
  - reflexivity.
  - induction l as [|(y, p) t IH]; cbn in *; [discriminate|]. destruct (Nat.eqb x y); cbn in *; auto.
  - induction l as [|(y, p) t IH]; cbn in *; [discriminate|]. destruct (Nat.eqb x y); cbn in *; auto.
Qed.
Lemma xlen_S : forall A (l : list A) B (l' : list B), length l' = S (length l) -> xlen l' == xlen l + 1.
Proof. intros A l B l' H. unfold xlen. rewrite H, Nat2Z.inj_succ. unfold Z.succ. rewrite inject_Z_plus. reflexivity. Qed.
Lemma xsubq_eq : forall x a b, a == b -> xeq (xsubq x a) (xsubq x b).
Proof. intros [x|] a b E; cbn; auto. rewrite E. reflexivity. Qed.
Lemma SR_in : forall k c w s, pos_ok w (qs s (QStore k)) = true -> xltb (xsubq (kcap s k) (xlen (qs s (QStore k)) + 1)) (Fin 0) = false ->
  SR s (m_q (QStore k) (ins_at c w) (s_kmav (upd (kmav s) k (xsubq (kcap s k) (xlen (qs s (QStore k)) + 1))) s)).
Proof.
  intros k c w s P F V. set (s1 := m_q _ _ _).
  assert (Q1 : forall k', qs s1 (QStore k') = if Nat.eqb k' k then ins_at c w (qs s (QStore k)) else qs s (QStore k')) by (intros; reflexivity).
  assert (L : xlen (ins_at c w (qs s (QStore k))) == xlen (qs s (QStore k)) + 1) by (apply xlen_S, length_ins_at; auto).
  assert (C1 : kcap s1 = kcap s) by reflexivity. split; [|split; auto].
  - intros k'. rewrite C1, Q1. change (kmav s1) with (upd (kmav s) k (xsubq (kcap s k) (xlen (qs s (QStore k)) + 1))). unfold upd. destruct (Nat.eqb_spec k' k) as [->|]; [|apply V].
    apply xsubq_eq. symmetry. auto.
  - intros k'. destruct (Nat.eqb_spec k' k) as [->|N].
    + right. unfold capok. rewrite C1, Q1, Nat.eqb_refl. apply xltb_false_iff in F. destruct (kcap s k); cbn in *; auto. lra.
    + apply noover_same. rewrite Q1. destruct (Nat.eqb_spec k' k); congruence.
Qed.
Lemma SR_out : forall k c s, SR s (s_kmav (upd (kmav s) k (xsubq (kcap s k) (xlen (qs (m_q (QStore k) (adel c) s) (QStore k))))) (m_q (QStore k) (adel c) s)).
Proof.
  intros k c s V. set (s1 := s_kmav _ _).
  assert (Q1 : forall k', qs s1 (QStore k') = if Nat.eqb k' k then adel c (qs s (QStore k)) else qs s (QStore k')) by (intros; reflexivity).
  assert (C1 : kcap s1 = kcap s) by reflexivity. split; [|split; auto].
  - intros k'. rewrite C1, Q1. change (kmav s1) with (upd (kmav s) k (xsubq (kcap s k) (xlen (qs (m_q (QStore k) (adel c) s) (QStore k))))). unfold upd.
    destruct (Nat.eqb_spec k' k) as [->|]; [|apply V]. apply xsubq_eq. rewrite qs_m_q, qeqb_refl. reflexivity.
  - intros k'. destruct (Nat.eqb_spec k' k) as [->|N].
    + left. eexists. rewrite Q1, Nat.eqb_refl. reflexivity.
    + apply noover_same. rewrite Q1. destruct (Nat.eqb_spec k' k); congruence.
Qed.
Ltac fz := fgo SR_po; try (apply SR_quiet; reflexivity).

Section Z.
  Let PO := SR_po.
  Local Notation R := SR.
  Lemma z_q_leave : forall q c, reg q = true -> frames R (q_leave q c). Proof. intros. unfold q_leave. fz; apply SR_q; auto. Qed.
  Lemma z_q_enter : forall q c p, reg q = true -> frames R (q_enter q c p). Proof. intros. unfold q_enter. fz; apply SR_q; auto. Qed.
  Lemma z_remove : forall c, frames R (remove c). Proof. intros. unfold remove. fz. Qed.
  Lemma z_resched : forall c t p u cap, frames R (reschedule c t p u cap). Proof. intros. unfold reschedule, push. fz. Qed.
  Lemma z_leave_req : forall c r, frames R (leave_req c r). Proof. intros. unfold leave_req. fz; auto using z_q_leave. Qed.
  Lemma z_check_fail : forall c, frames R (check_fail c). Proof. intros. unfold check_fail. fz; auto using z_q_leave, z_leave_req. Qed.
  Ltac f := fz; auto using z_q_leave, z_q_enter, z_remove, z_check_fail, z_resched, z_leave_req.
  Lemma z_activate : forall c a d p u pr kr kw cap, frames R (activate c a d p u pr kr kw cap). Proof. intros. unfold activate. f. Qed.
  Lemma z_create : forall c a d p u sk cap, frames R (create c a d p u sk cap). Proof. intros. unfold create. f. Qed.
  Lemma z_hold : forall c sp p u i cap, frames R (hold c sp p u i cap). Proof. intros. unfold hold, check_notdata. f. Qed.
  Lemma z_passivate : forall c, frames R (passivate c). Proof. intros. unfold passivate, check_notdata. f. Qed.
  Lemma z_interrupt : forall c, frames R (interrupt c). Proof. intros. unfold interrupt, check_notdata. f. Qed.
  Lemma z_resume : forall c a p u, frames R (resume c a p u). Proof. intros. unfold resume. f. Qed.
  Lemma z_standby : forall c, frames R (standby c). Proof. intros. unfold standby, check_notdata, check_notmain. f. Qed.
  Lemma z_set_remaining : forall c v p u, frames R (set_remaining c v p u). Proof. intros. unfold set_remaining. f. Qed.
  Lemma z_claim : forall c r q, frames R (claim c r q). Proof. intros. unfold claim, q_prio. f. Qed.
  Lemma z_honor_one : forall c r q, frames R (honor_one c r q). Proof. intros. unfold honor_one, q_prio. f. Qed.
  Lemma z_honor_all_from : forall c rq, frames R (honor_all_from c rq). Proof. induction rq as [|[r q] t IH]; cbn; f; auto using z_honor_one. Qed.
  Lemma z_honor_any_from : forall c rq, frames R (honor_any_from c rq). Proof. induction rq as [|[r q] t IH]; cbn; f; auto using z_honor_one. Qed.
  Lemma z_c_try : forall rt c, (forall r, frames R (rt r)) -> frames R (c_try rt c).
  Proof. intros rt c Hrt. unfold c_try, honor_all, honor_any. f; auto using z_honor_all_from, z_honor_any_from, z_claim. Qed.
  Lemma z_rloop : forall rt r an first p1, (forall r, frames R (rt r)) -> forall n mx, frames R (rloop (c_try rt) n r an first p1 mx).
  Proof. intros rt r an first p1 Hrt. induction n as [|n IH]; intros mx; cbn [rloop]; destruct mx as [[c p]|]; f; auto using z_c_try. Qed.
  Lemma z_r_try : forall n r, frames R (r_try n r).
  Proof. induction n as [|n IH]; intros r; cbn [r_try]; f; auto using z_rloop. Qed.
  Lemma z_release1 : forall n c r q b, frames R (release1 n c r q b). Proof. intros. unfold release1. f; auto using z_r_try. Qed.
  Lemma z_release : forall n c a, frames R (release n c a). Proof. intros. unfold release. f; auto using z_release1. Qed.
  Lemma z_release_claimers : forall z n r mx, frames R (release_claimers z n r mx).
  Proof. induction n; intros r mx; cbn [release_claimers]; destruct mx as [[c p]|]; f; apply z_release. Qed.
  Lemma z_res_release : forall n r q, frames R (res_release n r q). Proof. intros. unfold res_release. f; auto using z_r_try, z_release_claimers. Qed.
  Lemma z_set_cap : forall n r q, frames R (set_cap n r q). Proof. intros. unfold set_cap. f; auto using z_r_try. Qed.
  Lemma z_cancel : forall n c, frames R (cancel n c). Proof. intros. unfold cancel. f; auto using z_release1. Qed.
  Lemma z_terminate : forall n c, frames R (terminate n c). Proof. intros. unfold terminate. f; auto using z_release1. Qed.
  Lemma z_continue : forall n c, frames R (continue n c). Proof. intros. unfold continue. f; auto using z_r_try. Qed.
  Lemma z_step : forall n, frames R (step n). Proof. intros. unfold step, step_event. f; auto using z_continue. Qed.
  Lemma z_c_trywait : forall c, frames R (c_trywait c). Proof. intros. unfold c_trywait, leave_wait. f. Qed.
  Lemma z_s_trywait : forall l m, frames R (s_trywait l m). Proof. induction l as [|c t IH]; intros m; cbn [s_trywait]; f; auto using z_c_trywait. Qed.
  Lemma z_st_trywait : forall st m, frames R (st_trywait st m). Proof. intros. unfold st_trywait. f; auto using z_s_trywait. Qed.
  Lemma z_st_set : forall st v, frames R (st_set st v). Proof. intros. unfold st_set, set_sval. f; auto using z_st_trywait. Qed.
  Lemma z_st_trigger : forall st v a m, frames R (st_trigger st v a m). Proof. intros. unfold st_trigger, set_sval. f; auto using z_st_trywait. Qed.
  Lemma z_give : forall d c, frames R (give d c). Proof. intros. unfold give. f. Qed.
  Lemma z_leave_from : forall d, frames R (leave_from d). Proof. intros. unfold leave_from. f. Qed.
  Lemma z_leave_to : forall d, frames R (leave_to d). Proof. intros. unfold leave_to. f. Qed.
  Lemma z_item : forall n, (forall k c w, frames R (item_enter n k c w)) /\ (forall k c, frames R (item_leave n k c)).
  Proof.
    induction n as [|n [IH1 IH2]]; split; intros; try (apply (fr_raise _ PO)); intros s; apply wp_fst.
    - cbn [item_enter]. apply wp_bind, wp_get. apply wp_if; intros NI; [apply wp_raise, (po_refl _ PO)|]. apply wp_if; intros PK; [apply wp_raise, (po_refl _ PO)|].
      apply wp_bind, wp_get. apply wp_if; intros FL; [apply wp_raise, (po_refl _ PO)|]. unfold set_kmav. apply wp_bind, wp_put, wp_bind, wp_put.
      match goal with |- wp _ _ _ ?z => set (s1 := z) end. assert (H : SR s s1) by (apply SR_in; auto; apply negb_false_iff; auto). clearbody s1.
      eapply wp_conseq; [apply (frames_wp _ R _ s1) | |]; cbv beta; [|intros; eapply (po_trans _ PO); eauto..].
      f; auto using z_leave_from, z_give.
    - cbn [item_leave]. apply wp_bind, wp_get. apply wp_if; intros NI; [apply wp_raise, (po_refl _ PO)|]. apply wp_bind, wp_put, wp_bind, wp_get. unfold set_kmav. apply wp_bind, wp_put.
      match goal with |- wp _ _ _ ?z => set (s1 := z) end. assert (H : SR s s1) by (exact (SR_out k c s)). clearbody s1.
      eapply wp_conseq; [apply (frames_wp _ R _ s1) | |]; cbv beta; [|intros; eapply (po_trans _ PO); eauto..].
      f; auto using z_leave_to.
  Qed.
  Lemma z_item_enter : forall n k c w, frames R (item_enter n k c w). Proof. intros. apply z_item. Qed.
  Lemma z_item_leave : forall n k c, frames R (item_leave n k c). Proof. intros. apply z_item. Qed.
  Lemma z_to_try : forall n c i p ks, frames R (to_try n c i p ks). Proof. induction ks; intros; cbn; f; auto using z_item_enter. Qed.
  Lemma z_rescan_items : forall n k d l, frames R (rescan_items n k d l). Proof. induction l; intros; cbn; f; auto using z_item_leave, z_leave_from, z_give. Qed.
  Lemma z_rescan : forall n k, frames R (rescan n k). Proof. intros n k. unfold rescan. f; auto using z_rescan_items. Qed.
  Lemma z_set_filter : forall n c h, frames R (set_filter n c h). Proof. intros. unfold set_filter. f; auto using z_rescan. Qed.
  Lemma z_rescan_to_loop : forall n k l, frames R (rescan_to_loop n k l). Proof. induction l as [|d t IH]; cbn [rescan_to_loop]; f; auto using z_item_enter, z_leave_to. Qed.
  Lemma z_run : forall sp p u cap, frames R (run sp p u cap). Proof. intros. unfold run. f. Qed.
  Lemma z_exec : forall n o, (forall k cap, o <> OStoreCap k cap) -> frames R (exec n o).
  Proof.
    intros n o H. destruct o; cbn [exec]; try (destruct (H k cap); reflexivity); auto using z_create, z_activate, z_hold, z_passivate, z_interrupt, z_resume, z_cancel, z_standby,
        z_set_remaining, z_release, z_res_release, z_set_cap, z_st_set, z_st_trigger, z_item_enter, z_item_leave, z_rescan, z_set_filter, z_run, z_step; try (unfold reset_now; f; fail).
    - unfold request, request1, fail_time, check_notdata, check_notmain. f; auto using z_release1, z_activate, z_c_try, z_r_try.
    - unfold wait, wait1, fail_time, check_notdata, check_notmain. f; auto using z_c_trywait.
    - unfold wait_for, fail_time, check_notdata, check_notmain. f; auto using z_c_trywait.
    - unfold from_store, fail_time, check_notdata, check_notmain. f; auto using z_item_leave.
    - unfold to_store, fail_time, check_notdata, check_notmain. f; auto using z_to_try.
    - f. apply z_terminate.
  Qed.
End Z.
Lemma AV_init : forall t0 R sv kc hp y d, AV (init t0 R sv kc hp y d).
Proof. intros. intros k. cbn. destruct (kc k) as [x|]; cbn; auto. unfold xlen. change (x == x - 0). lra. Qed.
Definition set_kcap (k : nat) (cap : xq) (s : env) : env := s_kmav (upd (kmav s) k (xsubq cap (xlen (qs s (QStore k))))) (s_kcap (upd (kcap s) k cap) s).
Lemma AV_exec : forall n o s s' r, AV s -> exec n o s = (s', r) ->
  AV s' /\ (forall k, noover s s' k) /\ kcap s' = match o with OStoreCap k cap => upd (kcap s) k cap | _ => kcap s end.
Proof.
  intros n o s s' r V E.
  assert (Z : (forall k cap, o <> OStoreCap k cap) \/ exists k cap, o = OStoreCap k cap) by (destruct o; try (left; intros; discriminate); right; eauto).
  destruct Z as [Z|(k & cap & ->)].
  - pose proof (z_exec n o Z s V) as F. rewrite E in F. cbn in F. destruct F as (A & B & C). split; auto. split; auto. destruct o; auto. destruct (Z k cap); reflexivity.
  - cbn [exec] in E.
    assert (W : wp (st_set_cap n k cap) (fun _ s' => SR (set_kcap k cap s) s') (fun _ s' => SR (set_kcap k cap s) s') s).
    { unfold st_set_cap. apply wp_bind, wp_get, wp_bind, wp_put, wp_bind, wp_get. unfold set_kmav. apply wp_bind, wp_put. apply (frames_wp _ SR).
      fz. apply z_rescan_to_loop. }
    unfold wp in W. rewrite E in W. assert (W' : SR (set_kcap k cap s) s') by (destruct r; auto). clear W.
    assert (V1 : AV (set_kcap k cap s)).
    { intros k'. cbn. unfold upd. destruct (Nat.eqb_spec k' k) as [->|]; [|apply V]. apply xsubq_eq. reflexivity. }
    destruct (W' V1) as (A & B & C). split; auto.
Qed.

(** * Hand-over: what item_enter and item_leave do, exactly *)
Lemma bind_assoc : forall A B C (m : M A) (h : A -> M B) (j : B -> M C) s, bind (bind m h) j s = bind m (fun a => bind (h a) j) s.
Proof. intros. unfold bind. destruct (m s) as [s1 [a|e]]; auto. Qed.
Lemma bind_ok : forall A B (m : M A) (h : A -> M B) s s1 a, m s = (s1, Ok a) -> bind m h s = h a s1.
Proof. intros A B m h s s1 a E. unfold bind. rewrite E. auto. Qed.
Lemma bind_er : forall A B (m : M A) (h : A -> M B) s s1 e, m s = (s1, Er e) -> bind m h s = (s1, Er e).
Proof. intros A B m h s s1 e E. unfold bind. rewrite E. auto. Qed.

(** a waiting component becomes scheduled for now *)
Definition wake_up (c : nat) : M unit :=
  remove c ;;; setc c (w_status Scheduled) ;;; n <- get now ;; reschedule c (Fin n) (Fin 0) false (Some false).
Record up (s : env) (c : nat) (s' : env) : Prop := {
  up_sval : sval s' = sval s; up_now : now s' = now s; up_rsc : rsc s' = rsc s; up_cur : cur s' = cur s; up_end : ended s' = ended s;
  up_kmav : kmav s' = kmav s; up_kcap : kcap s' = kcap s; up_q : qs s' = qs s;
  up_self : comps s' c = w_onev true (w_sched (Fin (now s)) (w_status Scheduled (comps s c)));
  up_oth : forall d, d <> c -> comps s' d = comps s d;
  up_seq : seq s' = (seq s + 1)%Z;
  up_evl : evl s' = filter (notof c) (evl s) ++ [mkEv (now s) (Fin 0) (seq s + 1) c] }.
Lemma wake_up_ok : forall s c, EI s -> exists s', wake_up c s = (s', Ok tt) /\ up s c s'.
Proof.
  intros s c EE.
  assert (W : wp (wake_up c) (fun _ s' => up s c s') (fun _ _ => False) s).
  { unfold wake_up. apply wp_bind.
    assert (W2 : wp (remove c) (fun _ s2 => evl s2 = filter (notof c) (evl s) /\ seq s2 = seq s /\ now s2 = now s /\ sval s2 = sval s /\ rsc s2 = rsc s /\ cur s2 = cur s /\ ended s2 = ended s
        /\ kmav s2 = kmav s /\ kcap s2 = kcap s /\ (exists b, comps s2 c = w_onev b (comps s c)) /\ (forall d, d <> c -> comps s2 d = comps s d) /\ qs s2 = qs s) (fun _ _ => False) s).
    { unfold remove. apply wp_bind, wp_get. apply wp_if; intros B.
      - apply wp_bind, wp_get. destruct (ev_del c (evl s)) as [l'|] eqn:DL.
        + apply wp_bind, wp_put, wp_setc. apply ev_del_filter in DL; [|apply EE]. subst l'. cbn [evl s_evl seq now sval rsc cur ended qs kmav kcap m_comp s_comps].
          do 9 (split; [reflexivity|]). split; [exists false; rewrite comps_same; reflexivity|]. split; auto. intros d N. rewrite comps_diff; auto.
        + apply ev_del_none in DL. destruct DL. apply (ei_onev _ EE); auto.
      - assert (NF : filter (notof c) (evl s) = evl s) by (apply notof_id; rewrite <- (ei_onev _ EE); congruence). rewrite NF.
        apply wp_bind, wp_stat.
        assert (FB : comps s c = w_onev false (comps s c)) by (rewrite <- B; destruct (comps s c); reflexivity).
        apply wp_when; intros _; [apply wp_bind, wp_put, wp_put|]; cbn [evl seq now sval rsc cur ended qs kmav kcap comps s_stby s_pend] in *; do 9 (split; [reflexivity|]); split; eauto. }
    eapply wp_conseq; [exact W2 | cbv beta | auto]. intros _ s2 (E2 & Z2 & N2 & S2 & R2 & K2 & D2 & M2 & P2 & (b & C2) & O2 & Q2).
    apply wp_bind, wp_setc, wp_bind, wp_get. unfold reschedule. apply wp_bind, wp_get.
    change (now (m_comp c (w_status Scheduled) s2)) with (now s2).
    assert (NP : xltb (Fin (now s2)) (Fin (now s2)) = false). { cbn. apply Qltb_false_iff. lra. }
    rewrite NP. apply wp_bind, wp_ret, wp_bind, wp_setc. unfold push. apply wp_bind, wp_put, wp_bind, wp_get, wp_bind, wp_setc, wp_put.
    constructor; cbn [sval now rsc cur ended qs evl seq kmav kcap s_evl s_seq m_comp s_comps]; try congruence.
    - cbn [comps s_evl]. rewrite comps_same. cbn [comps s_seq]. rewrite !comps_same. rewrite C2, N2. destruct (comps s c); reflexivity.
    - intros d N. cbn [comps s_evl]. rewrite comps_diff by auto. cbn [comps s_seq]. rewrite !comps_diff by auto. auto. }
  unfold wp in W. destruct (wake_up c s) as [s' [[]|e]]; [|destruct W]. eauto.
Qed.

(** the queues in the list [fs] lose their member [d] *)
Definition dropF (d : nat) (fs : list nat) (f : qref -> list (nat * xq)) (q : qref) : list (nat * xq) :=
  match q with QFrom k => if memb k fs then adel d (f q) else f q | _ => f q end.
Definition dropT (d : nat) (fs : list nat) (f : qref -> list (nat * xq)) (q : qref) : list (nat * xq) :=
  match q with QTo k => if memb k fs then adel d (f q) else f q | _ => f q end.
Lemma inq_adel_other : forall c d l, c <> d -> inq c (adel d l) = inq c l.
Proof.
  intros c d l N. destruct (inq c l) eqn:E.
  - apply inq_iff in E. apply inq_iff. apply in_map_iff in E. destruct E as (x & <- & I). apply in_map_iff. exists x. split; auto. apply filter_In. split; auto.
    apply negb_true_iff, Nat.eqb_neq. auto.
  - apply inq_false in E. apply inq_false. intros H. apply E. apply in_map_iff in H. destruct H as (x & <- & I). apply filter_In in I. apply in_map, I.
Qed.
Lemma leave_all_F : forall d fs s, NoDup fs -> (forall k, In k fs -> inq d (qs s (QFrom k)) = true) ->
  exists s', mfor fs (fun k => q_leave (QFrom k) d) s = (s', Ok tt) /\ only_qs s s' /\ forall q, qs s' q = dropF d fs (qs s) q.
Proof.
  intros d. induction fs as [|k fs IH]; intros s N H; cbn [mfor].
  - exists s. split; [reflexivity|]. split; [unfold only_qs; destruct s; reflexivity|]. intros []; reflexivity.
  - inversion N as [|? ? N1 N2]; subst. set (s1 := m_q (QFrom k) (adel d) s).
    assert (Q1 : forall k', k' <> k -> qs s1 (QFrom k') = qs s (QFrom k')) by (intros k' E; unfold s1; rewrite qs_m_q; cbn; destruct (Nat.eqb_spec k' k); congruence).
    assert (E1 : q_leave (QFrom k) d s = (s1, Ok tt)) by (unfold q_leave, bind, get; rewrite H by (left; reflexivity); reflexivity).
    destruct (IH s1 N2) as (s2 & E2 & O2 & D2). { intros k' I. rewrite Q1; [apply H; right; auto|]. intros ->. auto. }
    exists s2. split; [rewrite (bind_ok _ _ _ _ _ _ _ E1); exact E2|]. split.
    + unfold only_qs in *. rewrite O2. unfold s1, m_q. destruct s; reflexivity.
    + intros q. rewrite D2. unfold dropF. destruct q as [| | | |k'|]; try reflexivity. cbn [memb existsb]. unfold memb. cbn [existsb].
      destruct (Nat.eqb_spec k' k) as [->|E]; cbn [orb].
      * assert (X : existsb (Nat.eqb k) fs = false) by (apply memb_false_iff; auto). rewrite X. unfold s1. rewrite qs_m_q, qeqb_refl. reflexivity.
      * rewrite Q1; auto.
Qed.
Lemma leave_all_T : forall d fs s, NoDup fs -> (forall k, In k fs -> inq d (qs s (QTo k)) = true) ->
  exists s', mfor fs (fun k => q_leave (QTo k) d) s = (s', Ok tt) /\ only_qs s s' /\ forall q, qs s' q = dropT d fs (qs s) q.
Proof.
  intros d. induction fs as [|k fs IH]; intros s N H; cbn [mfor].
  - exists s. split; [reflexivity|]. split; [unfold only_qs; destruct s; reflexivity|]. intros []; reflexivity.
  - inversion N as [|? ? N1 N2]; subst. set (s1 := m_q (QTo k) (adel d) s).
    assert (Q1 : forall k', k' <> k -> qs s1 (QTo k') = qs s (QTo k')) by (intros k' E; unfold s1; rewrite qs_m_q; cbn; destruct (Nat.eqb_spec k' k); congruence).
    assert (E1 : q_leave (QTo k) d s = (s1, Ok tt)) by (unfold q_leave, bind, get; rewrite H by (left; reflexivity); reflexivity).
    destruct (IH s1 N2) as (s2 & E2 & O2 & D2). { intros k' I. rewrite Q1; [apply H; right; auto|]. intros ->. auto. }
    exists s2. split; [rewrite (bind_ok _ _ _ _ _ _ _ E1); exact E2|]. split.
    + unfold only_qs in *. rewrite O2. unfold s1, m_q. destruct s; reflexivity.
    + intros q. rewrite D2. unfold dropT. destruct q as [| | | | |k']; try reflexivity. cbn [memb existsb]. unfold memb. cbn [existsb].
      destruct (Nat.eqb_spec k' k) as [->|E]; cbn [orb].
      * assert (X : existsb (Nat.eqb k) fs = false) by (apply memb_false_iff; auto). rewrite X. unfold s1. rewrite qs_m_q, qeqb_refl. reflexivity.
      * rewrite Q1; auto.
Qed.

(** requester [d] is honored with item [i] *)
Record handed (s : env) (d i : nat) (s' : env) : Prop := {
  ha_sval : sval s' = sval s; ha_now : now s' = now s; ha_rsc : rsc s' = rsc s; ha_cur : cur s' = cur s; ha_end : ended s' = ended s;
  ha_kmav : kmav s' = kmav s; ha_kcap : kcap s' = kcap s;
  ha_q : forall q, qs s' q = dropF d (c_from (comps s d)) (qs s) q;
  ha_self : comps s' d = w_onev true (w_sched (Fin (now s)) (w_status Scheduled (w_fitem (Some i) (w_from [] (comps s d)))));
  ha_oth : forall x, x <> d -> comps s' x = comps s x;
  ha_seq : seq s' = (seq s + 1)%Z;
  ha_evl : evl s' = filter (notof d) (evl s) ++ [mkEv (now s) (Fin 0) (seq s + 1) d] }.
(** a requester of a store is in the queues of all the stores it names *)
Record ready (s : env) : Prop := {
  rd_e : EI s; rd_nd : forall q, NoDup (map fst (qs s q));
  rd_f : forall d k, In k (c_from (comps s d)) <-> In d (map fst (qs s (QFrom k)));
  rd_t : forall d k, In k (c_to (comps s d)) <-> In d (map fst (qs s (QTo k)));
  rd_nf : forall d, NoDup (c_from (comps s d)); rd_nt : forall d, NoDup (c_to (comps s d));
  rd_one : forall d, c_from (comps s d) = [] \/ c_to (comps s d) = [] }.
Lemma EI_only_qs : forall s s', only_qs s s' -> EI s -> EI s'.
Proof. intros s s' O [A B C D E F G H]. unfold only_qs in O. rewrite O. constructor; cbn; auto. Qed.
Lemma EI_comp : forall s c f, (forall y, c_onev (f y) = c_onev y /\ c_sched (f y) = c_sched y /\ c_status (f y) = c_status y) -> EI s -> EI (m_comp c f s).
Proof.
  intros s c f H [A B C D E F G K].
  assert (Z : forall d, c_onev (comps (m_comp c f s) d) = c_onev (comps s d) /\ c_sched (comps (m_comp c f s) d) = c_sched (comps s d) /\ c_status (comps (m_comp c f s) d) = c_status (comps s d)).
  { intros d. rewrite comps_m_comp. destruct (Nat.eqb_spec d c) as [->|]; auto. }
  constructor; auto.
  - intros d. destruct (Z d) as (-> & _). apply C.
  - intros e I. destruct (Z (e_c e)) as (_ & -> & _). apply D; auto.
  - intros d. destruct (Z d) as (-> & _ & ->). apply E.
Qed.
Lemma hand_ok : forall s d i, EI s -> NoDup (c_from (comps s d)) -> (forall k, In k (c_from (comps s d)) -> In d (map fst (qs s (QFrom k)))) ->
  exists s', (leave_from d ;;; give d i) s = (s', Ok tt) /\ handed s d i s' /\ EI s'.
Proof.
  intros s d i EE N H.
  assert (RR : frames RE (leave_from d ;;; give d i)) by (rego; auto using re_give; apply RE_of_Eeq; auto with eeq).
  specialize (RR s EE). destruct (leave_all_F d (c_from (comps s d)) s N) as (s1 & E1 & O1 & D1). { intros k I. apply inq_iff. auto. }
  assert (L1 : leave_from d s = (s1, Ok tt)) by (unfold leave_from, bind at 1, get; exact E1).
  rewrite (bind_ok _ _ _ _ _ _ _ L1). set (s2 := m_comp d (w_fitem (Some i)) (m_comp d (w_from []) s1)).
  assert (EE2 : EI s2) by (unfold s2; apply EI_comp; [auto|]; apply EI_comp; [auto|]; eapply EI_only_qs; eauto).
  destruct (wake_up_ok s2 d EE2) as (s3 & E3 & U). exists s3. split; [exact E3|].
  rewrite (bind_ok _ _ _ _ _ _ _ L1) in RR. change (give d i s1) with (wake_up d s2) in RR. rewrite E3 in RR. split; [|exact RR].
  assert (C1 : comps s1 = comps s) by (rewrite O1; reflexivity).
  assert (F : sval s2 = sval s /\ now s2 = now s /\ rsc s2 = rsc s /\ cur s2 = cur s /\ ended s2 = ended s /\ kmav s2 = kmav s /\ kcap s2 = kcap s /\ seq s2 = seq s /\ evl s2 = evl s).
  { unfold s2, m_comp. cbn. rewrite O1. cbn. repeat split. }
  destruct F as (F1 & F2 & F3 & F4 & F5 & F6 & F7 & F8 & F9). destruct U. constructor; try congruence.
  - intros q. rewrite up_q0. change (qs s2) with (qs s1). apply D1.
  - rewrite up_self0. unfold s2. rewrite !comps_same, C1. fold s2. rewrite F2. reflexivity.
  - intros x N0. rewrite up_oth0 by auto. unfold s2. rewrite !comps_diff by auto. rewrite C1. reflexivity.
Qed.
(** requester [w] of space, whose item entered, goes on *)
Record freed (s : env) (w : nat) (s' : env) : Prop := {
  fd_sval : sval s' = sval s; fd_now : now s' = now s; fd_rsc : rsc s' = rsc s; fd_cur : cur s' = cur s; fd_end : ended s' = ended s;
  fd_kmav : kmav s' = kmav s; fd_kcap : kcap s' = kcap s;
  fd_q : forall q, qs s' q = dropT w (c_to (comps s w)) (qs s) q;
  fd_self : comps s' w = w_titem None (w_onev true (w_sched (Fin (now s)) (w_status Scheduled (w_to [] (comps s w)))));
  fd_oth : forall x, x <> w -> comps s' x = comps s x;
  fd_seq : seq s' = (seq s + 1)%Z;
  fd_evl : evl s' = filter (notof w) (evl s) ++ [mkEv (now s) (Fin 0) (seq s + 1) w] }.
Definition go_on (w : nat) : M unit :=
  setc w (w_to []) ;;; remove w ;;; setc w (w_status Scheduled) ;;; n <- get now ;; reschedule w (Fin n) (Fin 0) false (Some false) ;;; setc w (w_titem None).
Lemma go_on_ok : forall s w, EI s -> exists s', go_on w s = (s', Ok tt) /\ kmav s' = kmav s /\ kcap s' = kcap s /\ qs s' = qs s /\
  sval s' = sval s /\ now s' = now s /\ rsc s' = rsc s /\ cur s' = cur s /\ ended s' = ended s /\ seq s' = (seq s + 1)%Z /\
  comps s' w = w_titem None (w_onev true (w_sched (Fin (now s)) (w_status Scheduled (w_to [] (comps s w))))) /\
  (forall x, x <> w -> comps s' x = comps s x) /\ evl s' = filter (notof w) (evl s) ++ [mkEv (now s) (Fin 0) (seq s + 1) w].
Proof.
  intros s w EE. set (s2 := m_comp w (w_to []) s).
  assert (EE2 : EI s2) by (unfold s2; apply EI_comp; auto).
  destruct (wake_up_ok s2 w EE2) as (s3 & E3 & U). exists (m_comp w (w_titem None) s3).
  assert (G : go_on w s = (wake_up w ;;; setc w (w_titem None)) s2).
  { unfold go_on, wake_up. unfold bind at 1, setc at 1, put at 1. fold s2. rewrite !bind_assoc. unfold bind. destruct (remove w s2) as [s4 [a|e]]; auto. }
  split. { rewrite G. rewrite (bind_ok _ _ _ _ _ _ _ E3). reflexivity. }
  destruct U. do 9 (split; [assumption|]). split.
  { rewrite comps_same, up_self0. unfold s2 at 2. rewrite comps_same. reflexivity. }
  split; auto. intros x N. rewrite comps_diff, up_oth0 by auto. unfold s2. rewrite comps_diff by auto. reflexivity.
Qed.
Lemma free_ok : forall s w, EI s -> NoDup (c_to (comps s w)) -> (forall k, In k (c_to (comps s w)) -> In w (map fst (qs s (QTo k)))) ->
  exists s', (leave_to w ;;; go_on w) s = (s', Ok tt) /\ freed s w s' /\ EI s'.
Proof.
  intros s d EE N H.
  assert (RR : frames RE (leave_to d ;;; go_on d)) by (unfold go_on; rego; apply RE_of_Eeq; auto with eeq).
  specialize (RR s EE). destruct (leave_all_T d (c_to (comps s d)) s N) as (s1 & E1 & O1 & D1). { intros k I. apply inq_iff. auto. }
  assert (L1 : leave_to d s = (s1, Ok tt)) by (unfold leave_to, bind at 1, get; exact E1).
  rewrite (bind_ok _ _ _ _ _ _ _ L1). pose proof (EI_only_qs _ _ O1 EE) as EE1.
  destruct (go_on_ok s1 d EE1) as (s2 & E2 & A1 & A2 & A3 & A4 & A5 & A6 & A7 & A8 & A9 & A10 & A11 & A12). exists s2. split; auto.
  rewrite (bind_ok _ _ _ _ _ _ _ L1), E2 in RR. split; [|exact RR].
  assert (F : sval s1 = sval s /\ now s1 = now s /\ rsc s1 = rsc s /\ cur s1 = cur s /\ ended s1 = ended s /\ kmav s1 = kmav s /\ kcap s1 = kcap s /\ seq s1 = seq s /\ evl s1 = evl s /\ comps s1 = comps s).
  { rewrite O1. cbn. repeat split. }
  destruct F as (F1 & F2 & F3 & F4 & F5 & F6 & F7 & F8 & F9 & F10). constructor; try congruence.
  intros x N0. rewrite A11, F10; auto.
Qed.

(** ** the contents of a store *)
Definition room (s : env) (k : nat) : xq := xsubq (kcap s k) (xlen (qs s (QStore k))).
Definition inn (k c : nat) (w : qpos) (s : env) : env :=
  m_q (QStore k) (ins_at c w) (s_kmav (upd (kmav s) k (xsubq (kcap s k) (xlen (qs s (QStore k)) + 1))) s).
Definition out (k c : nat) (s : env) : env :=
  s_kmav (upd (kmav s) k (xsubq (kcap s k) (xlen (qs (m_q (QStore k) (adel c) s) (QStore k))))) (m_q (QStore k) (adel c) s).
Definition takers (s : env) (k : nat) : list nat := map fst (qs s (QFrom k)).
Definition putters (s : env) (k : nat) : list nat := map fst (qs s (QTo k)).
Definition taker (s : env) (k i : nat) : option nat := find (fun d => c_filter (comps s d) i) (takers s k).
Definition items (s : env) (k : nat) : list nat := map fst (qs s (QStore k)).

Definition fits (s : env) (k c : nat) (w : qpos) : Prop :=
  ~ In c (items s k) /\ pos_ok w (qs s (QStore k)) = true /\ xltb (xsubq (kcap s k) (xlen (qs s (QStore k)) + 1)) (Fin 0) = false.
Inductive leaves (k c : nat) (s s' : env) : Prop :=
| lv_plain : xltb (Fin 0) (room (out k c s) k) = false \/ putters s k = [] -> s' = out k c s -> leaves k c s s'
| lv_put : forall w i, xltb (Fin 0) (room (out k c s) k) = true -> hd_error (putters s k) = Some w -> c_titem (comps s w) = Some i ->
    fits (out k c s) k i (PSorted (c_tprio (comps s w))) -> taker s k i = None -> freed (inn k i (PSorted (c_tprio (comps s w))) (out k c s)) w s' -> leaves k c s s'.
Record rdy (s : env) : Prop := {
  ry_e : EI s; ry_nd : forall q, NoDup (map fst (qs s q));
  ry_f : forall d k k', In d (takers s k) -> In k' (c_from (comps s d)) <-> In d (takers s k');
  ry_t : forall d k k', In d (putters s k) -> In k' (c_to (comps s d)) <-> In d (putters s k');
  ry_nf : forall d, NoDup (c_from (comps s d)); ry_nt : forall d, NoDup (c_to (comps s d));
  ry_one : forall d k k', In d (takers s k) -> ~ In d (putters s k') }.

Inductive enters (k c : nat) (w : qpos) (s s' : env) : Prop :=
| en_stay : taker s k c = None -> s' = inn k c w s -> enters k c w s s'
| en_hand : forall d s2, taker s k c = Some d -> leaves k c (inn k c w s) s2 -> rdy s2 -> handed s2 d c s' -> enters k c w s s'.

Lemma adel_ins_tail : forall c p l, ~ In c (map fst l) -> adel c (ins_tail c p l) = l.
Proof.
  induction l as [|(y, q) t IH]; intros N; cbn [ins_tail].
  - cbn. rewrite Nat.eqb_refl. reflexivity.
  - destruct (forallb _ _).
    + cbn. rewrite Nat.eqb_refl. cbn. cbn in N. destruct (Nat.eqb_spec c y) as [->|]; [tauto|]. cbn. f_equal. apply adel_id. tauto.
    + cbn. cbn in N. destruct (Nat.eqb_spec c y) as [->|]; [tauto|]. cbn. f_equal. apply IH. tauto.
Qed.
Lemma adel_ins_at : forall c w l, ~ In c (map fst l) -> pos_ok w l = true -> adel c (ins_at c w l) = l.
Proof.
  intros c w l N P. destruct w as [p| | |x|x]; cbn [ins_at pos_ok] in *.
  - destruct l as [|a t]; cbn [ins_sorted]; [cbn; rewrite Nat.eqb_refl; reflexivity|]. destruct (xltb p (snd a)); auto using adel_ins_tail.
    change (adel c ((c, p) :: a :: t)) with (if negb (Nat.eqb c c) then (c, p) :: adel c (a :: t) else adel c (a :: t)). rewrite Nat.eqb_refl. cbn [negb]. apply adel_id; auto.
  - unfold adel. rewrite filter_app. cbn. rewrite Nat.eqb_refl. cbn. rewrite app_nil_r. apply adel_id; auto.
  - cbn. rewrite Nat.eqb_refl. cbn. apply adel_id; auto.
  - induction l as [|(y, p) t IH]; cbn in *; [discriminate|]. destruct (Nat.eqb_spec x y) as [->|]; cbn.
    + rewrite Nat.eqb_refl. cbn. destruct (Nat.eqb_spec c y) as [->|]; [tauto|]. cbn. f_equal. apply adel_id. tauto.
    + destruct (Nat.eqb_spec c y) as [->|]; [tauto|]. cbn. f_equal. apply IH; [tauto|]. destruct (Nat.eqb_spec x y); [congruence | auto].
  - induction l as [|(y, p) t IH]; cbn in *; [discriminate|]. destruct (Nat.eqb_spec x y) as [->|]; cbn.
    + destruct (Nat.eqb_spec c y) as [->|]; [tauto|]. cbn. rewrite Nat.eqb_refl. cbn. f_equal. apply adel_id. tauto.
    + destruct (Nat.eqb_spec c y) as [->|]; [tauto|]. cbn. f_equal. apply IH; [tauto|]. destruct (Nat.eqb_spec x y); [congruence | auto].
Qed.
Lemma in_ins_tail : forall c p l x, In x (ins_tail c p l) <-> x = (c, p) \/ In x l.
Proof. induction l as [|a t IH]; intros x; cbn [ins_tail]; [cbn; intuition|]. destruct (forallb _ _); cbn; rewrite ?IH; intuition. Qed.
Lemma items_inn : forall k c w s j, pos_ok w (qs s (QStore k)) = true -> In j (items (inn k c w s) k) <-> j = c \/ In j (items s k).
Proof.
  intros k c w s j P. unfold items, inn. rewrite qs_m_q, qeqb_refl. cbn [qs s_kmav]. set (l := qs s (QStore k)) in *. clearbody l.
  destruct w as [p| | |x|x]; cbn [ins_at pos_ok] in *.
  - assert (A : forall a, In a (ins_sorted c p l) <-> a = (c, p) \/ In a l).
    { intros a. destruct l as [|b t]; cbn [ins_sorted]; [cbn; intuition|]. destruct (xltb p (snd b)); [cbn; intuition | apply in_ins_tail]. }
    rewrite !in_map_iff. split.
    + intros (a & <- & I). apply A in I. destruct I as [->|I]; eauto.
    + intros [->|(a & <- & I)]; [exists (c, p) | exists a]; rewrite A; auto.
  - rewrite map_app, in_app_iff. cbn. intuition.
  - cbn. intuition.
  - induction l as [|(y, p) t IH]; cbn in *; [discriminate|]. destruct (Nat.eqb_spec x y) as [->|]; cbn; [intuition|]. rewrite IH; [intuition|]. destruct (Nat.eqb_spec x y); [congruence | auto].
  - induction l as [|(y, p) t IH]; cbn in *; [discriminate|]. destruct (Nat.eqb_spec x y) as [->|]; cbn; [intuition|]. rewrite IH; [intuition|]. destruct (Nat.eqb_spec x y); [congruence | auto].
Qed.
Lemma qs_inn : forall k c w s q, q <> QStore k -> qs (inn k c w s) q = qs s q.
Proof. intros k c w s q N. unfold inn. rewrite qs_m_q. destruct (qeqb q (QStore k)) eqn:E; auto. apply qeqb_iff in E. congruence. Qed.
Lemma qs_out : forall k c s q, q <> QStore k -> qs (out k c s) q = qs s q.
Proof. intros k c s q N. unfold out. cbn [qs s_kmav]. rewrite qs_m_q. destruct (qeqb q (QStore k)) eqn:E; auto. apply qeqb_iff in E. congruence. Qed.
Lemma qs_inn_k : forall k c w s, qs (inn k c w s) (QStore k) = ins_at c w (qs s (QStore k)).
Proof. intros. unfold inn. rewrite qs_m_q, qeqb_refl. reflexivity. Qed.
Lemma qs_out_k : forall k c s, qs (out k c s) (QStore k) = adel c (qs s (QStore k)).
Proof. intros. unfold out. cbn [qs s_kmav]. rewrite qs_m_q, qeqb_refl. reflexivity. Qed.

(** ** the hand-over that never comes to an end *)
Definition endless (s : env) (k c : nat) : Prop :=
  exists w i, hd_error (putters s k) = Some w /\ c_titem (comps s w) = Some i /\ ~ In i (items (out k c s) k) /\
    xltb (xsubq (kcap s k) (xlen (adel c (qs s (QStore k))) + 1)) (Fin 0) = false /\ taker s k i <> None.
Lemma endless_leave : forall n s k c, In c (items s k) -> endless s k c -> snd (item_leave n k c s) = Er OutOfFuel.
Proof.
  induction n as [n IH] using lt_wf_ind. intros s k c I (w & i & H1 & H2 & H3 & H4 & H5). destruct n as [|n]; [reflexivity|]. cbn [item_leave].
  unfold bind at 1, get at 1. rewrite (proj2 (inq_iff c _) I). cbn [negb]. unfold bind at 1, put at 1, bind at 1, get at 1, set_kmav at 1, bind at 1, put at 1.
  change (s_kmav _ (m_q (QStore k) (adel c) s)) with (out k c s) at 1.
  assert (X : xltb (Fin 0) (xsubq (kcap (m_q (QStore k) (adel c) s) k) (xlen (qs (m_q (QStore k) (adel c) s) (QStore k)))) = true).
  { rewrite qs_m_q, qeqb_refl. change (kcap (m_q (QStore k) (adel c) s) k) with (kcap s k). apply xltb_false_iff in H4. apply xltb_iff. destruct (kcap s k); cbn in *; auto. lra. }
  rewrite X. clear X. unfold bind at 1, get at 1. change (map fst (qs (out k c s) (QTo k))) with (putters (out k c s) k).
  assert (P : putters (out k c s) k = putters s k) by (unfold putters; rewrite qs_out; auto; discriminate). rewrite P, H1. clear P.
  unfold bind at 1, get at 1. change (comps (out k c s)) with (comps s). rewrite H2. unfold bind at 1, get at 1. change (comps (out k c s)) with (comps s). set (pr := c_tprio (comps s w)).
  unfold bind at 1. destruct n as [|n]; [reflexivity|].
  assert (E : snd (item_enter (S n) k i (PSorted pr) (out k c s)) = Er OutOfFuel).
  { cbn [item_enter]. unfold bind at 1, get at 1. rewrite (proj2 (inq_false i _) H3). cbn [pos_ok negb]. unfold bind at 1, get at 1. rewrite qs_out_k. change (kcap (out k c s)) with (kcap s). rewrite H4.
    unfold set_kmav at 1, bind at 1, put at 1, bind at 1, put at 1.
    set (s2 := m_q (QStore k) (ins_at i (PSorted pr)) _).
    assert (S2 : s2 = inn k i (PSorted pr) (out k c s)). { unfold s2, inn. rewrite qs_out_k. reflexivity. }
    unfold bind at 1, get at 1. change (find (fun d => c_filter (comps s2 d) i) (map fst (qs s2 (QFrom k)))) with (taker s2 k i).
    assert (T : taker s2 k i = taker s k i). { rewrite S2. unfold taker, takers. rewrite qs_inn, qs_out by discriminate. reflexivity. }
    rewrite T. destruct (taker s k i) as [d|] eqn:TK; [|congruence]. unfold bind at 1.
    assert (Y : snd (item_leave n k i s2) = Er OutOfFuel).
    { assert (O2 : adel i (qs s2 (QStore k)) = adel c (qs s (QStore k))).
      { rewrite S2, qs_inn_k, qs_out_k. apply adel_ins_at; auto. unfold items in H3. rewrite qs_out_k in H3. auto. }
      apply IH; [lia | |].
      - rewrite S2. apply items_inn; auto.
      - exists w, i. rewrite O2. assert (I2 : items (out k i s2) k = items (out k c s) k) by (unfold items; rewrite !qs_out_k, O2; reflexivity).
        assert (P2 : putters s2 k = putters s k). { rewrite S2. unfold putters. rewrite qs_inn, qs_out by discriminate. reflexivity. }
        rewrite I2, P2, T. split; [auto|]. split; [rewrite S2; exact H2|]. split; [auto|]. split; [rewrite S2; exact H4|]. congruence. }
    destruct (item_leave n k i s2) as [s3 r]. cbn in Y. rewrite Y. reflexivity. }
  destruct (item_enter (S n) k i (PSorted pr) (out k c s)) as [s3 r]. cbn in E. rewrite E. reflexivity.
Qed.
(** ** one unfolding *)
Lemma leave_step : forall n k c s, item_leave (S n) k c s =
  if inq c (qs s (QStore k)) then
    if xltb (Fin 0) (room (out k c s) k) then
      match hd_error (putters s k) with
      | None => (out k c s, Ok tt)
      | Some w => match c_titem (comps s w) with
                  | None => (out k c s, Er AttrErr)
                  | Some i => bind (item_enter n k i (PSorted (c_tprio (comps s w)))) (fun _ => leave_to w ;;; go_on w) (out k c s)
                  end
      end
    else (out k c s, Ok tt)
  else (s, Er ValueErr).
Proof.
  intros n k c s. cbn [item_leave]. unfold bind at 1, get at 1. destruct (inq c (qs s (QStore k))); cbn [negb]; [|reflexivity].
  unfold bind at 1, put at 1, bind at 1, get at 1, set_kmav at 1, bind at 1, put at 1.
  change (s_kmav _ (m_q (QStore k) (adel c) s)) with (out k c s).
  change (xsubq (kcap (m_q (QStore k) (adel c) s) k) (xlen (qs (m_q (QStore k) (adel c) s) (QStore k)))) with (room (out k c s) k).
  destruct (xltb (Fin 0) (room (out k c s) k)); [|reflexivity]. unfold bind at 1, get at 1. change (map fst (qs (out k c s) (QTo k))) with (putters (out k c s) k).
  assert (P : putters (out k c s) k = putters s k) by (unfold putters; rewrite qs_out; auto; discriminate). rewrite P. destruct (hd_error (putters s k)) as [w|]; [|reflexivity].
  unfold bind at 1, get at 1. change (comps (out k c s)) with (comps s). destruct (c_titem (comps s w)) as [i|]; [|reflexivity].
  unfold bind at 1, get at 1. change (comps (out k c s)) with (comps s). reflexivity.
Qed.
Lemma enter_step : forall n k c w s, item_enter (S n) k c w s =
  if inq c (qs s (QStore k)) then (s, Er ValueErr)
  else if negb (pos_ok w (qs s (QStore k))) then (s, Er ValueErr)
  else if xltb (xsubq (kcap s k) (xlen (qs s (QStore k)) + 1)) (Fin 0) then (s, Er QueueFull)
  else match taker s k c with
       | None => (inn k c w s, Ok tt)
       | Some d => bind (item_leave n k c) (fun _ => leave_from d ;;; give d c) (inn k c w s)
       end.
Proof.
  intros n k c w s. cbn [item_enter]. unfold bind at 1, get at 1. destruct (inq c (qs s (QStore k))); [reflexivity|]. destruct (negb (pos_ok w (qs s (QStore k)))); [reflexivity|].
  unfold bind at 1, get at 1. destruct (xltb (xsubq (kcap s k) (xlen (qs s (QStore k)) + 1)) (Fin 0)); [reflexivity|].
  unfold set_kmav at 1, bind at 1, put at 1, bind at 1, put at 1. change (m_q (QStore k) (ins_at c w) _) with (inn k c w s). unfold bind at 1, get at 1.
  change (find (fun d => c_filter (comps (inn k c w s) d) c) (map fst (qs (inn k c w s) (QFrom k)))) with (taker (inn k c w s) k c).
  assert (T : taker (inn k c w s) k c = taker s k c). { unfold taker, takers. rewrite qs_inn by discriminate. reflexivity. }
  rewrite T. destruct (taker s k c); reflexivity.
Qed.

Lemma NoDup_ins_at : forall c w l, ~ In c (map fst l) -> pos_ok w l = true -> NoDup (map fst l) -> NoDup (map fst (ins_at c w l)).
Proof.
  intros c w l N P D.
  assert (H : forall l', adel c l' = l -> length l' = S (length l) -> NoDup (map fst l')).
  { clear P. revert D N. revert l. intros l D N l' E L. 
    assert (G : forall m : list (nat * xq), NoDup (map fst (adel c m)) -> (length m <= S (length (adel c m)))%nat -> NoDup (map fst m)).
    { clear. induction m as [|(y, p) t IH]; intros D L; [constructor|]. cbn in *. destruct (Nat.eqb_spec c y) as [->|E]; cbn in *.
      - assert (E : adel y t = t).
        { assert (Z : forall t0 : list (nat * xq), (length t0 <= length (adel y t0))%nat -> adel y t0 = t0).
          { induction t0 as [|(z, q) t1 IH1]; cbn; auto. destruct (Nat.eqb_spec y z) as [->|]; cbn.
            - intros X. pose proof (filter_len _ (fun x : nat * xq => negb (Nat.eqb z (fst x))) t1). unfold adel in X. lia.
            - intros X. f_equal. apply IH1. unfold adel. lia. }
          apply Z. unfold adel. lia. }
        constructor; [|unfold adel in E; rewrite E in D; auto]. intros I. rewrite <- E in I. apply in_map_iff in I. destruct I as (x & E1 & I). apply filter_In in I. destruct I as (_ & I).
        rewrite E1, Nat.eqb_refl in I. discriminate.
      - inversion D as [|? ? D1 D2]; subst. constructor; [|apply IH; auto; unfold adel; lia]. intros I. apply D1. apply in_map_iff in I. destruct I as (x & E1 & I). apply in_map_iff. exists x. split; auto.
        apply filter_In. split; auto. apply negb_true_iff, Nat.eqb_neq. congruence. }
    apply G; rewrite E; auto. lia. }
  apply H; [apply adel_ins_at | apply length_ins_at]; auto.
Qed.
Lemma rdy_inn : forall k c w s, ~ In c (items s k) -> pos_ok w (qs s (QStore k)) = true -> rdy s -> rdy (inn k c w s).
Proof.
  intros k c w s N P [A B C D E F G].
  constructor; auto.
  - destruct A as [A1 A2 A3 A4 A5 A6 A7 A8]. constructor; auto.
  - intros q. destruct (qeqb q (QStore k)) eqn:Q; [apply qeqb_iff in Q; subst q; rewrite qs_inn_k; apply NoDup_ins_at; auto | rewrite qs_inn; auto; intros ->; rewrite qeqb_refl in Q; discriminate].
Qed.
Lemma rdy_out : forall k c s, rdy s -> rdy (out k c s).
Proof.
  intros k c s [A B C D E F G].
  constructor; auto.
  - destruct A as [A1 A2 A3 A4 A5 A6 A7 A8]. constructor; auto.
  - intros q. destruct (qeqb q (QStore k)) eqn:Q; [apply qeqb_iff in Q; subst q; rewrite qs_out_k; apply NoDup_adel; auto; apply B | rewrite qs_out; auto; intros ->; rewrite qeqb_refl in Q; discriminate].
Qed.

Lemma dropF_spec : forall d fs f q x, In x (map fst (dropF d fs f q)) <-> In x (map fst (f q)) /\ ~ (x = d /\ exists k, q = QFrom k /\ In k fs).
Proof.
  intros d fs f q x. unfold dropF. destruct q as [r|r|t|k|k|k]; try (split; [intros H; split; auto; intros (_ & j & E & _); discriminate | tauto]).
  destruct (memb k fs) eqn:M.
  - apply memb_iff in M. split.
    + intros H. apply in_map_iff in H. destruct H as (y & <- & I). apply filter_In in I. destruct I as (I & E). split; [apply in_map; auto|]. intros (Z & _). rewrite Z, Nat.eqb_refl in E. discriminate.
    + intros (H & N). apply in_map_iff in H. destruct H as (y & <- & I). apply in_map, filter_In. split; auto. apply negb_true_iff, Nat.eqb_neq. intros Z. apply N. eauto.
  - apply memb_false_iff in M. split; [|tauto]. intros H. split; auto. intros (_ & j & E & I). injection E as ->. auto.
Qed.
Lemma dropT_spec : forall d fs f q x, In x (map fst (dropT d fs f q)) <-> In x (map fst (f q)) /\ ~ (x = d /\ exists k, q = QTo k /\ In k fs).
Proof.
  intros d fs f q x. unfold dropT. destruct q as [r|r|t|k|k|k]; try (split; [intros H; split; auto; intros (_ & j & E & _); discriminate | tauto]).
  destruct (memb k fs) eqn:M.
  - apply memb_iff in M. split.
    + intros H. apply in_map_iff in H. destruct H as (y & <- & I). apply filter_In in I. destruct I as (I & E). split; [apply in_map; auto|]. intros (Z & _). rewrite Z, Nat.eqb_refl in E. discriminate.
    + intros (H & N). apply in_map_iff in H. destruct H as (y & <- & I). apply in_map, filter_In. split; auto. apply negb_true_iff, Nat.eqb_neq. intros Z. apply N. eauto.
  - apply memb_false_iff in M. split; [|tauto]. intros H. split; auto. intros (_ & j & E & I). injection E as ->. auto.
Qed.
Lemma NoDup_dropF : forall d fs f q, NoDup (map fst (f q)) -> NoDup (map fst (dropF d fs f q)).
Proof. intros d fs f q N. unfold dropF. destruct q; auto. destruct (memb k fs); auto. apply NoDup_adel; auto. Qed.
Lemma NoDup_dropT : forall d fs f q, NoDup (map fst (f q)) -> NoDup (map fst (dropT d fs f q)).
Proof. intros d fs f q N. unfold dropT. destruct q; auto. destruct (memb k fs); auto. apply NoDup_adel; auto. Qed.
Lemma takers_handed : forall s d i s' k x, handed s d i s' -> In x (takers s' k) <-> In x (takers s k) /\ ~ (x = d /\ In k (c_from (comps s d))).
Proof.
  intros s d i s' k x H. unfold takers. rewrite (ha_q _ _ _ _ H), dropF_spec. split; intros (A & B); split; auto; intros (C & D); apply B.
  - split; eauto.
  - destruct D as (j & E & D). injection E as ->. auto.
Qed.
Lemma putters_handed : forall s d i s' k, handed s d i s' -> putters s' k = putters s k.
Proof. intros s d i s' k H. unfold putters. rewrite (ha_q _ _ _ _ H). reflexivity. Qed.
Lemma items_handed : forall s d i s' k, handed s d i s' -> items s' k = items s k.
Proof. intros s d i s' k H. unfold items. rewrite (ha_q _ _ _ _ H). reflexivity. Qed.
Lemma rdy_handed : forall s d i s' k, rdy s -> In d (takers s k) -> handed s d i s' -> EI s' -> rdy s'.
Proof.
  intros s d i s' k [A B C D E F G] T H EE. pose proof (fun j x => takers_handed _ _ _ _ j x H) as K. pose proof (fun j => putters_handed _ _ _ _ j H) as P.
  assert (ND : forall x j, In x (takers s' j) -> x <> d). { intros x j I ->. apply K in I. destruct I as (I & N). apply N. split; auto. apply (C d j j); auto. }
  constructor; auto.
  - intros q. rewrite (ha_q _ _ _ _ H). apply NoDup_dropF; auto.
  - intros x j j' I. pose proof (ND _ _ I) as N. rewrite (ha_oth _ _ _ _ H) by auto. apply K in I. rewrite (C x j j') by apply I. rewrite K. intuition.
  - intros x j j'. rewrite !P. intros I. assert (N : x <> d) by (intros ->; exact (G d k j T I)). rewrite (ha_oth _ _ _ _ H) by auto. apply D with (k := j); auto.
  - intros x. destruct (Nat.eq_dec x d) as [->|N]; [rewrite (ha_self _ _ _ _ H); constructor | rewrite (ha_oth _ _ _ _ H); auto].
  - intros x. destruct (Nat.eq_dec x d) as [->|N]; [rewrite (ha_self _ _ _ _ H); apply F | rewrite (ha_oth _ _ _ _ H); auto].
  - intros x j j' I. rewrite P. apply K in I. apply G with (k := j). apply I.
Qed.
Lemma putters_freed : forall s w s' k x, freed s w s' -> In x (putters s' k) <-> In x (putters s k) /\ ~ (x = w /\ In k (c_to (comps s w))).
Proof.
  intros s d s' k x H. unfold putters. rewrite (fd_q _ _ _ H), dropT_spec. split; intros (A & B); split; auto; intros (C & D); apply B.
  - split; eauto.
  - destruct D as (j & E & D). injection E as ->. auto.
Qed.
Lemma takers_freed : forall s w s' k, freed s w s' -> takers s' k = takers s k.
Proof. intros s d s' k H. unfold takers. rewrite (fd_q _ _ _ H). reflexivity. Qed.
Lemma items_freed : forall s w s' k, freed s w s' -> items s' k = items s k.
Proof. intros s d s' k H. unfold items. rewrite (fd_q _ _ _ H). reflexivity. Qed.
Lemma rdy_freed : forall s w s' k, rdy s -> In w (putters s k) -> freed s w s' -> EI s' -> rdy s'.
Proof.
  intros s d s' k [A B C D E F G] T H EE. pose proof (fun j x => putters_freed _ _ _ j x H) as K. pose proof (fun j => takers_freed _ _ _ j H) as P.
  assert (ND : forall x j, In x (putters s' j) -> x <> d). { intros x j I ->. apply K in I. destruct I as (I & N). apply N. split; auto. apply (D d j j); auto. }
  constructor; auto.
  - intros q. rewrite (fd_q _ _ _ H). apply NoDup_dropT; auto.
  - intros x j j'. rewrite !P. intros I. assert (N : x <> d) by (intros ->; exact (G d j k I T)). rewrite (fd_oth _ _ _ H) by auto. apply C with (k := j); auto.
  - intros x j j' I. pose proof (ND _ _ I) as N. rewrite (fd_oth _ _ _ H) by auto. apply K in I. rewrite (D x j j') by apply I. rewrite K. intuition.
  - intros x. destruct (Nat.eq_dec x d) as [->|N]; [rewrite (fd_self _ _ _ H); apply E | rewrite (fd_oth _ _ _ H); auto].
  - intros x. destruct (Nat.eq_dec x d) as [->|N]; [rewrite (fd_self _ _ _ H); constructor | rewrite (fd_oth _ _ _ H); auto].
  - intros x j j'. rewrite P. intros I J. apply K in J. apply (G x j j'); tauto.
Qed.
(** the first requester of space cannot be served: it has no item, or its item is in the store, or there is less than one place *)
Definition stuck (s : env) (k c : nat) : Prop :=
  exists w, hd_error (putters s k) = Some w /\ xltb (Fin 0) (room (out k c s) k) = true /\
    (c_titem (comps s w) = None \/ exists i, c_titem (comps s w) = Some i /\ (In i (items (out k c s) k) \/ xltb (xsubq (kcap s k) (xlen (adel c (qs s (QStore k))) + 1)) (Fin 0) = true)).
Lemma hd_in : forall A (l : list A) a, hd_error l = Some a -> In a l. Proof. intros A [|b t] a H; cbn in H; [discriminate|]. injection H as ->. left; auto. Qed.
Lemma leave_cases : forall n s k c s0 r0, rdy s -> In c (items s k) -> item_leave n k c s = (s0, r0) ->
  (r0 = Ok tt /\ leaves k c s s0 /\ rdy s0) \/ (exists e, r0 = Er e /\ ((n < 2)%nat \/ endless s k c \/ stuck s k c /\ e <> OutOfFuel)).
Proof.
  intros n s k c s0 r0 R I EQ. destruct n as [|n]; [right; injection EQ as <- <-; eexists; split; [reflexivity|]; left; lia|].
  pose proof EQ as EQ0. rewrite leave_step in EQ. rewrite (proj2 (inq_iff c _) I) in EQ.
  destruct (xltb (Fin 0) (room (out k c s) k)) eqn:RM.
  2: { injection EQ as <- <-. left. split; [reflexivity|]. split; [constructor 1; auto | apply rdy_out; auto]. }
  destruct (hd_error (putters s k)) as [w|] eqn:HD.
  2: { injection EQ as <- <-. left. split; [reflexivity|]. split; [constructor 1; auto; right; destruct (putters s k); [auto | discriminate] | apply rdy_out; auto]. }
  destruct (c_titem (comps s w)) as [i|] eqn:TI.
  2: { injection EQ as <- <-. right. eexists. split; [reflexivity|]. right. right. split; [|discriminate]. exists w. auto. }
  destruct n as [|n]; [injection EQ as <- <-; right; eexists; split; [reflexivity|]; left; lia|].
  unfold bind at 1 in EQ. rewrite enter_step in EQ. destruct (inq i (qs (out k c s) (QStore k))) eqn:II.
  { injection EQ as <- <-. right. eexists. split; [reflexivity|]. right. right. split; [|discriminate]. apply inq_iff in II. exists w. eauto 7. }
  cbn [pos_ok negb] in EQ. rewrite qs_out_k in EQ. change (kcap (out k c s)) with (kcap s) in EQ.
  destruct (xltb (xsubq (kcap s k) (xlen (adel c (qs s (QStore k))) + 1)) (Fin 0)) eqn:FL.
  { injection EQ as <- <-. right. eexists. split; [reflexivity|]. right. right. split; [|discriminate]. exists w. eauto 7. }
  apply inq_false in II.
  assert (T : taker (out k c s) k i = taker s k i) by (unfold taker, takers; rewrite qs_out by discriminate; reflexivity). rewrite T in EQ.
  destruct (taker s k i) as [d|] eqn:TK.
  - right. assert (EN : endless s k c). { exists w, i. rewrite TK. do 4 (split; [auto|]). discriminate. }
    pose proof (endless_leave (S (S n)) s k c I EN) as Z. rewrite EQ0 in Z. cbn in Z. eauto 7.
  - left. set (s1 := inn k i (PSorted (c_tprio (comps s w))) (out k c s)) in *.
    assert (R1 : rdy s1) by (apply rdy_inn; auto using rdy_out).
    assert (P1 : In w (putters s1 k)) by (apply hd_in in HD; exact HD).
    destruct (free_ok s1 w) as (s2 & E2 & F2 & EE2); [apply R1 | apply R1 | intros j J; apply (ry_t _ R1 w k j); auto|].
    rewrite E2 in EQ. injection EQ as <- <-. split; auto. split; [|eapply rdy_freed; eauto]. eapply lv_put; eauto. split; [auto|]. split; [reflexivity|]. rewrite qs_out_k. exact FL.
Qed.
Lemma leave_raises : forall n s k c, ~ In c (items s k) -> item_leave (S n) k c s = (s, Er ValueErr).
Proof. intros n s k c N. rewrite leave_step. rewrite (proj2 (inq_false c _) N). reflexivity. Qed.
Lemma leave_ok : forall n s k c s', rdy s -> item_leave n k c s = (s', Ok tt) -> In c (items s k) /\ leaves k c s s' /\ rdy s' /\ ~ endless s k c.
Proof.
  intros n s k c s' R E. destruct (in_dec Nat.eq_dec c (items s k)) as [I|N].
  - split; auto. destruct (leave_cases n s k c _ _ R I E) as [(_ & H)|(e & E1 & _)]; [|discriminate]. split; [apply H|]. split; [apply H|].
    intros Z. pose proof (endless_leave n s k c I Z) as Y. rewrite E in Y. discriminate.
  - exfalso. destruct n; [discriminate|]. rewrite leave_raises in E by auto. discriminate.
Qed.
Lemma takers_leaves : forall k c s s' j, leaves k c s s' -> takers s' j = takers s j.
Proof. intros k c s s' j [H ->|w i H1 H2 H3 H4 H5 H6]; [reflexivity|]. rewrite (takers_freed _ _ _ _ H6). reflexivity. Qed.
Definition endless_in (s : env) (k c : nat) (w : qpos) : Prop := taker s k c <> None /\ endless (inn k c w s) k c.
Lemma enter_cases : forall n s k c w s0 r0, rdy s -> item_enter n k c w s = (s0, r0) ->
  (r0 = Ok tt /\ fits s k c w /\ enters k c w s s0 /\ rdy s0) \/
  (exists e, r0 = Er e /\ ((n < 3)%nat \/ fits s k c w /\ endless_in s k c w \/ e <> OutOfFuel)).
Proof.
  intros n s k c w s0 r0 R EQ. destruct n as [|n]; [right; injection EQ as <- <-; eexists; split; [reflexivity|]; left; lia|].
  rewrite enter_step in EQ. destruct (inq c (qs s (QStore k))) eqn:IN.
  { injection EQ as <- <-. right. eexists. split; [reflexivity|]. right. right. discriminate. }
  destruct (negb (pos_ok w (qs s (QStore k)))) eqn:PK.
  { injection EQ as <- <-. right. eexists. split; [reflexivity|]. right. right. discriminate. }
  destruct (xltb (xsubq (kcap s k) (xlen (qs s (QStore k)) + 1)) (Fin 0)) eqn:FL.
  { injection EQ as <- <-. right. eexists. split; [reflexivity|]. right. right. discriminate. }
  apply inq_false in IN. apply negb_false_iff in PK. assert (FT : fits s k c w) by (repeat split; auto).
  assert (R1 : rdy (inn k c w s)) by (apply rdy_inn; auto).
  destruct (taker s k c) as [d|] eqn:TK.
  2: { injection EQ as <- <-. left. split; auto. split; auto. split; auto. constructor 1; auto. }
  assert (I1 : In c (items (inn k c w s) k)) by (apply items_inn; auto).
  unfold bind at 1 in EQ. destruct (item_leave n k c (inn k c w s)) as [s2 r2] eqn:E2.
  destruct (leave_cases n _ k c _ _ R1 I1 E2) as [(-> & L & R2)|(e & -> & H)].
  - assert (T2 : In d (takers s2 k)). { rewrite (takers_leaves _ _ _ _ _ L). apply find_some in TK. apply TK. }
    destruct (hand_ok s2 d c) as (s3 & E3 & H3 & EE3); [apply R2 | apply R2 | intros j J; apply (ry_f _ R2 d k j); auto|].
    rewrite E3 in EQ. injection EQ as <- <-. left. split; auto. split; auto. split; [econstructor 2; eauto | eapply rdy_handed; eauto].
  - injection EQ as <- <-. right. exists e. split; auto. destruct H as [H|[H|(_ & H)]]; [left; lia | right; left; split; auto; split; [congruence | auto] | auto].
Qed.
Lemma endless_enter : forall n s k c w, fits s k c w -> endless_in s k c w -> snd (item_enter n k c w s) = Er OutOfFuel.
Proof.
  intros n s k c w (A & B & C) (D & E). destruct n as [|n]; [reflexivity|]. rewrite enter_step. rewrite (proj2 (inq_false c _) A), B, C. cbn [negb].
  destruct (taker s k c) as [d|]; [|congruence]. unfold bind at 1. assert (I : In c (items (inn k c w s) k)) by (apply items_inn; auto).
  pose proof (endless_leave n _ k c I E) as Z. destruct (item_leave n k c (inn k c w s)) as [s2 r2]. cbn in Z. subst r2. reflexivity.
Qed.

(** * Conservation *)
Definition cnt (l : list nat) (i : nat) : nat := count_occ Nat.eq_dec l i.
Definition nat2_dec : forall a b : nat * nat, {a = b} + {a <> b}.
Proof. intros a b. decide equality; apply Nat.eq_dec. Defined.
Definition cnt2 (l : list (nat * nat)) (i k : nat) : nat := count_occ nat2_dec l (i, k).
Definition ik {A} (x : A * nat * nat) : nat * nat := (snd (fst x), snd x).
Definition who {A} (x : A * nat * nat) : A := fst (fst x).
Definition whos (puts : list (option nat * nat * nat)) : list nat := flat_map (fun x => match who x with Some w => [w] | None => [] end) puts.
Record tr (s : env) (puts : list (option nat * nat * nat)) (outs : list (nat * nat)) (gives : list (nat * nat * nat)) (s' : env) : Prop := {
  t_bal : forall k i, (cnt (items s' k) i + cnt2 outs i k + cnt2 (map ik gives) i k = cnt (items s k) i + cnt2 (map ik puts) i k)%nat;
  t_give : forall d i k, In (d, i, k) gives -> In d (takers s k) /\ c_filter (comps s d) i = true /\ c_fitem (comps s' d) = Some i /\ forall k', ~ In d (takers s' k');
  t_gnd : NoDup (map who gives);
  t_goth : forall x, ~ In x (map who gives) -> c_fitem (comps s' x) = c_fitem (comps s x) /\ forall k', In x (takers s' k') <-> In x (takers s k');
  t_put : forall w i k, In (Some w, i, k) puts -> In w (putters s k) /\ c_titem (comps s w) = Some i /\ forall k', ~ In w (putters s' k');
  t_pnd : NoDup (whos puts);
  t_poth : forall x, ~ In x (whos puts) -> c_titem (comps s' x) = c_titem (comps s x) /\ forall k', In x (putters s' k') <-> In x (putters s k');
  t_flt : forall x, c_filter (comps s' x) = c_filter (comps s x) }.
Lemma in_whos : forall puts w, In w (whos puts) <-> exists i k, In (Some w, i, k) puts.
Proof.
  intros puts w. unfold whos. rewrite in_flat_map. split.
  - intros (((o, i), k) & I & H). cbn in H. destruct o as [v|]; [|contradiction]. destruct H as [->|[]]. eauto.
  - intros (i & k & I). eexists. split; [exact I|]. left. reflexivity.
Qed.
Lemma in_who : forall A (l : list (A * nat * nat)) a, In a (map who l) <-> exists i k, In (a, i, k) l.
Proof.
  intros A l a. rewrite in_map_iff. split.
  - intros (((o, i), k) & E & I). cbn in E. subst. eauto.
  - intros (i & k & I). eexists. split; [|exact I]. reflexivity.
Qed.
Lemma NoDup_app_intro : forall A (l m : list A), NoDup l -> NoDup m -> (forall x, In x l -> ~ In x m) -> NoDup (l ++ m).
Proof.
  induction l as [|a t IH]; intros m N M D; cbn; auto. inversion N; subst. constructor.
  - intros I. apply in_app_iff in I. destruct I as [I|I]; auto. apply (D a); auto. left; auto.
  - apply IH; auto. intros x I. apply D. right; auto.
Qed.
Lemma cnt2_app : forall a b i k, cnt2 (a ++ b) i k = (cnt2 a i k + cnt2 b i k)%nat.
Proof. intros. unfold cnt2. apply count_occ_app. Qed.
Lemma tr_app : forall s p o g s1 p' o' g' s2, tr s p o g s1 -> tr s1 p' o' g' s2 -> tr s (p ++ p') (o ++ o') (g ++ g') s2.
Proof.
  intros s p o g s1 p' o' g' s2 [B1 G1 N1 O1 P1 M1 Q1 F1] [B2 G2 N2 O2 P2 M2 Q2 F2].
  assert (DG : forall x, In x (map who g) -> ~ In x (map who g')).
  { intros x I J. apply in_who in I. apply in_who in J. destruct I as (i & k & I). destruct J as (i' & k' & J). destruct (G1 _ _ _ I) as (_ & _ & _ & A). destruct (G2 _ _ _ J) as (A' & _). exact (A _ A'). }
  assert (DP : forall x, In x (whos p) -> ~ In x (whos p')).
  { intros x I J. apply in_whos in I. apply in_whos in J. destruct I as (i & k & I). destruct J as (i' & k' & J). destruct (P1 _ _ _ I) as (_ & _ & A). destruct (P2 _ _ _ J) as (A' & _). exact (A _ A'). }
  constructor.
  - intros k i. rewrite !map_app, !cnt2_app. specialize (B1 k i). specialize (B2 k i). lia.
  - intros d i k I. apply in_app_iff in I. destruct I as [I|I].
    + destruct (G1 _ _ _ I) as (A & B & C & D). split; auto. split; auto.
      assert (X : ~ In d (map who g')) by (apply DG, in_who; eauto). destruct (O2 d X) as (X1 & X2). split; [congruence|]. intros k' K. apply X2 in K. exact (D _ K).
    + destruct (G2 _ _ _ I) as (A & B & C & D). assert (X : ~ In d (map who g)) by (intros X; apply DG in X; apply X, in_who; eauto).
      destruct (O1 d X) as (X1 & X2). rewrite F1 in B. split; [apply X2; auto|]. auto.
  - rewrite map_app. apply NoDup_app_intro; auto.
  - intros x N. rewrite map_app, in_app_iff in N. destruct (O1 x) as (X1 & X2); [tauto|]. destruct (O2 x) as (Y1 & Y2); [tauto|]. split; [congruence|]. intros k'. rewrite Y2. apply X2.
  - intros w i k I. apply in_app_iff in I. destruct I as [I|I].
    + destruct (P1 _ _ _ I) as (A & B & C). split; auto. split; auto.
      assert (X : ~ In w (whos p')) by (apply DP, in_whos; eauto). destruct (Q2 w X) as (X1 & X2). intros k' K. apply X2 in K. exact (C _ K).
    + destruct (P2 _ _ _ I) as (A & B & C). assert (X : ~ In w (whos p)) by (intros X; apply DP in X; apply X, in_whos; eauto).
      destruct (Q1 w X) as (X1 & X2). split; [apply X2; auto|]. split; [congruence | auto].
  - unfold whos. rewrite flat_map_app. apply NoDup_app_intro; auto.
  - intros x N. unfold whos in N. rewrite flat_map_app, in_app_iff in N. fold (whos p) (whos p') in N. destruct (Q1 x) as (X1 & X2); [tauto|]. destruct (Q2 x) as (Y1 & Y2); [tauto|]. split; [congruence|]. intros k'. rewrite Y2. apply X2.
  - intros x. rewrite F2. apply F1.
Qed.
Lemma tr_refl : forall s, tr s [] [] [] s.
Proof. intros s. constructor; cbn; try tauto; auto; try constructor. Qed.
Lemma cnt_iff : forall l m i c, NoDup l -> NoDup m -> ~ In c l -> (forall j, In j m <-> j = c \/ In j l) -> cnt m i = (cnt l i + if Nat.eq_dec c i then 1 else 0)%nat.
Proof.
  intros l m i c L M N H. unfold cnt.
  assert (Z : forall l : list nat, NoDup l -> count_occ Nat.eq_dec l i = if in_dec Nat.eq_dec i l then 1%nat else 0%nat).
  { intros l0 D. destruct (in_dec Nat.eq_dec i l0) as [I|I]; [apply (proj1 (NoDup_count_occ' Nat.eq_dec l0)); auto | apply count_occ_not_In; auto]. }
  rewrite !Z by auto. destruct (in_dec Nat.eq_dec i m) as [I|I], (in_dec Nat.eq_dec i l) as [J|J], (Nat.eq_dec c i) as [E|E]; auto; subst; try tauto; exfalso; rewrite H in I; intuition congruence.
Qed.
Lemma cnt_inn : forall s k c w k' i, rdy s -> fits s k c w -> cnt (items (inn k c w s) k') i = (cnt (items s k') i + cnt2 [(c, k)] i k')%nat.
Proof.
  intros s k c w k' i R (A & B & _). unfold cnt2. cbn [count_occ]. destruct (Nat.eq_dec k k') as [<-|NE].
  - rewrite (cnt_iff (items s k) _ i c); auto; [|apply (ry_nd _ R (QStore k)) | apply (ry_nd _ (rdy_inn k c w s A B R) (QStore k)) | intros; apply items_inn; auto].
    destruct (nat2_dec (c, k) (i, k)) as [E|E], (Nat.eq_dec c i) as [F|F]; auto; congruence.
  - unfold items. rewrite qs_inn by congruence. destruct (nat2_dec (c, k) (i, k')) as [E|E]; [congruence | lia].
Qed.
Lemma cnt_out : forall s k c k' i, rdy s -> In c (items s k) -> (cnt (items (out k c s) k') i + cnt2 [(c, k)] i k')%nat = cnt (items s k') i.
Proof.
  intros s k c k' i R I. unfold cnt2. cbn [count_occ]. destruct (Nat.eq_dec k k') as [<-|NE].
  - rewrite (cnt_iff (items (out k c s) k) (items s k) i c); auto; [| apply (ry_nd _ (rdy_out k c s R) (QStore k)) | apply (ry_nd _ R (QStore k)) | |].
    + destruct (nat2_dec (c, k) (i, k)) as [E|E], (Nat.eq_dec c i) as [F|F]; auto; congruence.
    + unfold items. rewrite qs_out_k. intros J. apply in_map_iff in J. destruct J as (x & E & J). apply filter_In in J. destruct J as (_ & J). rewrite E, Nat.eqb_refl in J. discriminate.
    + intros j. unfold items. rewrite qs_out_k. split.
      * intros J. destruct (Nat.eq_dec j c) as [->|N]; auto. right. apply inq_iff. rewrite inq_adel_other by auto. apply inq_iff; auto.
      * intros [->|J]; auto. destruct (Nat.eq_dec j c) as [->|N]; auto. apply inq_iff in J. rewrite inq_adel_other in J by auto. apply inq_iff; auto.
  - unfold items. rewrite qs_out by congruence. destruct (nat2_dec (c, k) (i, k')) as [E|E]; [congruence | lia].
Qed.
Lemma tr_inn : forall s k c w, rdy s -> fits s k c w -> tr s [(None, c, k)] [] [] (inn k c w s).
Proof.
  intros s k c w R F. constructor; try (constructor; fail); try (intros ? ? ? []; fail).
  - intros k' i. rewrite (cnt_inn s k c w k' i R F). change (map ik [(@None nat, c, k)]) with [(c, k)]. change (cnt2 [] i k') with O. change (cnt2 (map (@ik nat) []) i k') with O. lia.
  - intros x _. split; reflexivity.
  - intros w' i k' [E|[]]. discriminate.
  - intros x _. split; reflexivity.
Qed.
Lemma tr_out : forall s k c, rdy s -> In c (items s k) -> tr s [] [(c, k)] [] (out k c s).
Proof.
  intros s k c R F. constructor; try (constructor; fail); try (intros ? ? ? []; fail).
  - intros k' i. rewrite <- (cnt_out s k c k' i R F). change (cnt2 (map (@ik nat) []) i k') with O. change (cnt2 (map (@ik (option nat)) []) i k') with O. lia.
  - intros x _. split; reflexivity.
  - intros x _. split; reflexivity.
Qed.
(** the requester of space goes on, and that makes it the one who put the item *)
Lemma tr_free : forall s i k o g s1 p w s2, tr s p o g s1 -> rdy s1 -> In (None, i, k) p -> In w (putters s k) -> c_titem (comps s w) = Some i ->
  ~ In w (whos p) -> In w (putters s1 k) -> freed s1 w s2 -> forall p', Permutation p ((None, i, k) :: p') -> tr s ((Some w, i, k) :: p') o g s2.
Proof.
  intros s i k o g s1 p w s2 [B1 G1 N1 O1 P1 M1 Q1 F1] R I W TI NW W1 F p' PE.
  assert (IT : forall j, items s2 j = items s1 j) by (intros; eapply items_freed; eauto).
  assert (TK : forall j, takers s2 j = takers s1 j) by (intros; eapply takers_freed; eauto).
  pose proof (fun j x => putters_freed _ _ _ j x F) as PT.
  assert (FI : forall x, c_fitem (comps s2 x) = c_fitem (comps s1 x) /\ c_filter (comps s2 x) = c_filter (comps s1 x)).
  { intros x. destruct (Nat.eq_dec x w) as [->|N]; [rewrite (fd_self _ _ _ F) | rewrite (fd_oth _ _ _ F) by auto]; auto. }
  assert (WP : Permutation (whos p) (whos p')). { unfold whos. rewrite PE. reflexivity. }
  assert (NW' : ~ In w (whos p')) by (intros X; apply NW; eapply Permutation_in; [symmetry; exact WP | exact X]).
  constructor.
  - intros k' j. rewrite IT, B1. f_equal. unfold cnt2. cbn [map ik fst snd].
    assert (PM : Permutation (map ik p) ((i, k) :: map ik p')) by (rewrite PE; reflexivity).
    rewrite (proj1 (Permutation_count_occ nat2_dec _ _) PM). reflexivity.
  - intros d j k' J. destruct (G1 _ _ _ J) as (A & B & C & D). destruct (FI d) as (-> & _). split; auto. split; auto. split; auto. intros k''. rewrite TK. apply D.
  - auto.
  - intros x N. destruct (FI x) as (-> & _). destruct (O1 x N) as (X & Y). split; auto. intros k'. rewrite TK. apply Y.
  - intros w' j k' [E|J].
    + injection E as <- <- <-. split; auto. split; auto. intros k' K. apply PT in K. destruct K as (K & L). apply L. split; auto. apply (ry_t _ R w k k'); auto.
    + assert (J' : In (Some w', j, k') p) by (eapply Permutation_in; [symmetry; exact PE | right; exact J]).
      destruct (P1 _ _ _ J') as (A & B & C). split; auto. split; auto. intros k'' K. apply PT in K. apply (C k''), K.
  - cbn. constructor; auto. eapply Permutation_NoDup; [exact WP | auto].
  - intros x N. cbn in N. assert (NX : ~ In x (whos p)). { intros X. apply N. right. eapply Permutation_in; [exact WP | exact X]. }
    destruct (Q1 x NX) as (A & B). assert (x <> w) by (intros ->; tauto). rewrite (fd_oth _ _ _ F) by auto. split; auto. intros k'. rewrite PT, B. intuition.
  - intros x. destruct (FI x) as (_ & ->). apply F1.
Qed.
(** a departing item that is handed to a requester *)
Lemma tr_hand : forall s p o g s1 d c k s2, tr s p ((c, k) :: o) g s1 -> rdy s1 -> In d (takers s1 k) -> c_filter (comps s1 d) c = true -> handed s1 d c s2 ->
  tr s p o ((d, c, k) :: g) s2.
Proof.
  intros s p o g s1 d c k s2 [B1 G1 N1 O1 P1 M1 Q1 F1] R D FC H.
  assert (IT : forall j, items s2 j = items s1 j) by (intros; eapply items_handed; eauto).
  assert (PT : forall j, putters s2 j = putters s1 j) by (intros; eapply putters_handed; eauto).
  pose proof (fun j x => takers_handed _ _ _ _ j x H) as TK.
  assert (FI : forall x, c_titem (comps s2 x) = c_titem (comps s1 x) /\ c_filter (comps s2 x) = c_filter (comps s1 x)).
  { intros x. destruct (Nat.eq_dec x d) as [->|N]; [rewrite (ha_self _ _ _ _ H) | rewrite (ha_oth _ _ _ _ H) by auto]; auto. }
  assert (ND : ~ In d (map who g)). { intros X. apply in_who in X. destruct X as (i & k' & X). destruct (G1 _ _ _ X) as (_ & _ & _ & Y). exact (Y _ D). }
  constructor.
  - intros k' i. rewrite IT. specialize (B1 k' i). change (map ik ((d, c, k) :: g)) with ((c, k) :: map ik g). unfold cnt2 in *. cbn [count_occ] in *. destruct (nat2_dec (c, k) (i, k')); lia.
  - intros x i k' [E|I].
    + injection E as <- <- <-. destruct (O1 d ND) as (_ & A). split; [apply A; auto|]. split; [rewrite <- F1; auto|]. split; [rewrite (ha_self _ _ _ _ H); reflexivity|].
      intros k' K. apply TK in K. destruct K as (K & L). apply L. split; auto. apply (ry_f _ R d k k'); auto.
    + destruct (G1 _ _ _ I) as (A & B & C & E). assert (x <> d). { intros ->. apply ND, in_who. eauto. }
      rewrite (ha_oth _ _ _ _ H) by auto. split; auto. split; auto. split; auto. intros k'' K. apply TK in K. apply (E k''), K.
  - cbn. constructor; auto.
  - intros x N. cbn in N. destruct (O1 x) as (A & B); [tauto|]. assert (x <> d) by (intros ->; tauto). rewrite (ha_oth _ _ _ _ H) by auto. split; auto. intros k'. rewrite TK, B. intuition.
  - intros w i k' I. destruct (P1 _ _ _ I) as (A & B & C). split; auto. split; auto. intros k''. rewrite PT. apply C.
  - auto.
  - intros x N. destruct (FI x) as (-> & _). destruct (Q1 x N) as (A & B). split; auto. intros k'. rewrite PT. apply B.
  - intros x. destruct (FI x) as (_ & ->). apply F1.
Qed.

(** a departure; the list of puts: the item that comes in its place *)
Lemma tr_leaves : forall k c s s', rdy s -> In c (items s k) -> leaves k c s s' -> exists p, tr s p [(c, k)] [] s' /\ length (whos p) = length p.
Proof.
  intros k c s s' R I [H ->|w i H1 H2 H3 H4 H5 H6].
  - exists []. split; [apply tr_out; auto | reflexivity].
  - exists [(Some w, i, k)]. split; [|reflexivity]. pose proof (rdy_out k c s R) as R1.
    pose proof (tr_app _ _ _ _ _ _ _ _ _ (tr_out s k c R I) (tr_inn _ _ _ _ R1 H4)) as T. cbn [app] in T.
    assert (R2 : rdy (inn k i (PSorted (c_tprio (comps s w))) (out k c s))) by (apply rdy_inn; [apply H4 | apply H4 | auto]).
    eapply tr_free; try exact T; try exact H6; auto; try (left; reflexivity); try (apply hd_in; assumption).
Qed.
Lemma tr_enters : forall k c w s s', rdy s -> fits s k c w -> enters k c w s s' -> exists p g, tr s ((None, c, k) :: p) [] g s' /\ length (whos p) = length p.
Proof.
  intros k c w s s' R F [H ->|d s2 H1 H2 R2 H3].
  - exists [], []. split; [apply tr_inn; auto | reflexivity].
  - assert (R1 : rdy (inn k c w s)) by (apply rdy_inn; [apply F | apply F | auto]).
    assert (I1 : In c (items (inn k c w s) k)) by (apply items_inn; [apply F | auto]).
    destruct (tr_leaves _ _ _ _ R1 I1 H2) as (p & T & L). exists p, [(d, c, k)]. split; auto.
    pose proof (tr_app _ _ _ _ _ _ _ _ _ (tr_inn s k c w R F) T) as T2. cbn [app] in T2.
    assert (D2 : In d (takers s2 k)). { rewrite (takers_leaves _ _ _ _ _ H2). apply find_some in H1. apply H1. }
    eapply tr_hand; eauto. rewrite (t_flt _ _ _ _ _ T2). apply find_some in H1. apply H1.
Qed.
(** ** rescan and changes of the capacity *)
(** all lists and queues as before, except that [d] may have left queues and changed itself *)
Record but (d : nat) (s s' : env) : Prop := {
  bu_i : forall k, items s' k = items s k;
  bu_c : forall x, x <> d -> comps s' x = comps s x;
  bu_t : forall x k, x <> d -> In x (takers s' k) <-> In x (takers s k);
  bu_p : forall x k, x <> d -> In x (putters s' k) <-> In x (putters s k);
  bu_f : c_filter (comps s' d) = c_filter (comps s d) }.
Lemma tr_but : forall d s s1 p o g s2 s3, but d s s1 -> tr s1 p o g s2 -> but d s2 s3 -> ~ In d (map who g) -> ~ In d (whos p) ->
  (forall k i, (cnt (items s3 k) i + cnt2 o i k + cnt2 (map ik g) i k = cnt (items s k) i + cnt2 (map ik p) i k)%nat) /\
  (forall x i k, In (x, i, k) g -> x <> d /\ In x (takers s k) /\ c_filter (comps s x) i = true /\ c_fitem (comps s3 x) = Some i /\ forall k', ~ In x (takers s3 k')) /\
  (forall x, x <> d -> ~ In x (map who g) -> c_fitem (comps s3 x) = c_fitem (comps s x) /\ forall k', In x (takers s3 k') <-> In x (takers s k')) /\
  (forall w i k, In (Some w, i, k) p -> w <> d /\ In w (putters s k) /\ c_titem (comps s w) = Some i /\ forall k', ~ In w (putters s3 k')) /\
  (forall x, x <> d -> ~ In x (whos p) -> c_titem (comps s3 x) = c_titem (comps s x) /\ forall k', In x (putters s3 k') <-> In x (putters s k')) /\
  (forall x, c_filter (comps s3 x) = c_filter (comps s x)).
Proof.
  intros d s s1 p o g s2 s3 [I1 C1 T1 P1 F1] [B G N O P M Q F] [I2 C2 T2 P2 F2] DG DP. repeat split.
  - intros k i. rewrite I2, <- I1. apply B.
  - intros ->. apply DG, in_who. eauto.
  - assert (x <> d) by (intros ->; apply DG, in_who; eauto). apply T1; auto. eapply G; eauto.
  - assert (x <> d) by (intros ->; apply DG, in_who; eauto). rewrite <- C1 by auto. eapply G; eauto.
  - assert (x <> d) by (intros ->; apply DG, in_who; eauto). rewrite C2 by auto. eapply G; eauto.
  - intros k' X. assert (x <> d) by (intros ->; apply DG, in_who; eauto). apply T2 in X; auto. destruct (G _ _ _ H) as (_ & _ & _ & Y). exact (Y _ X).
  - rewrite C2 by auto. rewrite <- C1 by auto. apply O; auto.
  - intros X. apply T2 in X; auto. apply T1; auto. apply O; auto.
  - intros X. apply T2; auto. apply O; auto. apply T1; auto.
  - intros ->. apply DP, in_whos. eauto.
  - assert (w <> d) by (intros ->; apply DP, in_whos; eauto). apply P1; auto. eapply P; eauto.
  - assert (w <> d) by (intros ->; apply DP, in_whos; eauto). rewrite <- C1 by auto. eapply P; eauto.
  - intros k' X. assert (w <> d) by (intros ->; apply DP, in_whos; eauto). apply P2 in X; auto. destruct (P _ _ _ H) as (_ & _ & Y). exact (Y _ X).
  - rewrite C2 by auto. rewrite <- C1 by auto. apply Q; auto.
  - intros X. apply P2 in X; auto. apply P1; auto. apply Q; auto.
  - intros X. apply P2; auto. apply Q; auto. apply P1; auto.
  - intros x. destruct (Nat.eq_dec x d) as [->|NE]; [rewrite F2, F, F1; auto | rewrite C2, F, C1; auto].
Qed.
(** withdrawing a component from the queues of stores *)
Lemma rdy_but : forall d s s', rdy s -> EI s' -> (forall q, NoDup (map fst (qs s' q))) -> but d s s' -> (forall k, ~ In d (takers s' k)) -> (forall k, ~ In d (putters s' k)) ->
  NoDup (c_from (comps s' d)) -> NoDup (c_to (comps s' d)) -> rdy s'.
Proof.
  intros d s s' [A B C D E F G] EE ND [I2 C2 T2 P2 F2] NT NP N1 N2. constructor; auto.
  - intros x k k' I. assert (x <> d) by (intros ->; exact (NT _ I)). rewrite C2, T2 by auto. apply T2 in I; auto. eapply C; eauto.
  - intros x k k' I. assert (x <> d) by (intros ->; exact (NP _ I)). rewrite C2, P2 by auto. apply P2 in I; auto. eapply D; eauto.
  - intros x. destruct (Nat.eq_dec x d) as [->|]; auto. rewrite C2; auto.
  - intros x. destruct (Nat.eq_dec x d) as [->|]; auto. rewrite C2; auto.
  - intros x k k' I J. assert (x <> d) by (intros ->; exact (NT _ I)). apply T2 in I; auto. apply P2 in J; auto. exact (G _ _ _ I J).
Qed.
Lemma leave_to_ok : forall s d k, rdy s -> In d (putters s k) -> exists s1, leave_to d s = (s1, Ok tt) /\ but d s s1 /\ rdy s1 /\ comps s1 = comps s /\ (forall k, ~ In d (putters s1 k)) /\ (forall k, takers s1 k = takers s k).
Proof.
  intros s d k R I. destruct (leave_all_T d (c_to (comps s d)) s) as (s1 & E1 & O1 & D1); [apply R | intros j J; apply inq_iff; apply (ry_t _ R d k j); auto|].
  exists s1. split; [unfold leave_to, bind at 1, get; exact E1|]. assert (C1 : comps s1 = comps s) by (rewrite O1; reflexivity).
  assert (NP : forall j, ~ In d (putters s1 j)).
  { intros j J. unfold putters in J. rewrite D1, dropT_spec in J. destruct J as (J & X). apply X. split; auto. exists j. split; auto. apply (ry_t _ R d j j); auto. }
  assert (T1 : forall j, takers s1 j = takers s j) by (intros j; unfold takers; rewrite D1; reflexivity).
  assert (BU : but d s s1).
  { constructor; auto.
    - intros j. unfold items. rewrite D1. reflexivity.
    - intros x _. rewrite C1. auto.
    - intros x j _. rewrite T1. tauto.
    - intros x j N. unfold putters. rewrite D1, dropT_spec. tauto.
    - rewrite C1. auto. }
  split; auto. split.
  - apply rdy_but with (d := d) (s := s); auto.
    + eapply EI_only_qs; eauto. apply R.
    + intros q. rewrite D1. apply NoDup_dropT, R.
    + intros j J. rewrite T1 in J. exact (ry_one _ R d j k J I).
    + rewrite C1. apply R.
    + rewrite C1. apply R.
  - auto.
Qed.
Lemma leave_from_ok : forall s d k, rdy s -> In d (takers s k) -> exists s1, leave_from d s = (s1, Ok tt) /\ but d s s1 /\ rdy s1 /\ comps s1 = comps s /\ (forall k, ~ In d (takers s1 k)) /\ (forall k, putters s1 k = putters s k).
Proof.
  intros s d k R I. destruct (leave_all_F d (c_from (comps s d)) s) as (s1 & E1 & O1 & D1); [apply R | intros j J; apply inq_iff; apply (ry_f _ R d k j); auto|].
  exists s1. split; [unfold leave_from, bind at 1, get; exact E1|]. assert (C1 : comps s1 = comps s) by (rewrite O1; reflexivity).
  assert (NP : forall j, ~ In d (takers s1 j)).
  { intros j J. unfold takers in J. rewrite D1, dropF_spec in J. destruct J as (J & X). apply X. split; auto. exists j. split; auto. apply (ry_f _ R d j j); auto. }
  assert (T1 : forall j, putters s1 j = putters s j) by (intros j; unfold putters; rewrite D1; reflexivity).
  assert (BU : but d s s1).
  { constructor; auto.
    - intros j. unfold items. rewrite D1. reflexivity.
    - intros x _. rewrite C1. auto.
    - intros x j N. unfold takers. rewrite D1, dropF_spec. tauto.
    - intros x j _. rewrite T1. tauto.
    - rewrite C1. auto. }
  split; auto. split.
  - apply rdy_but with (d := d) (s := s); auto.
    + eapply EI_only_qs; eauto. apply R.
    + intros q. rewrite D1. apply NoDup_dropF, R.
    + intros j J. rewrite T1 in J. exact (ry_one _ R d k j I J).
    + rewrite C1. apply R.
    + rewrite C1. apply R.
  - auto.
Qed.
Definition own (p : list (option nat * nat * nat)) : Prop := forall i k, ~ In (None, i, k) p.
Lemma own_whos : forall p, length (whos p) = length p -> own p.
Proof.
  assert (U : forall o (a b : nat) t, length (whos ((o, a, b) :: t)) = ((match o with Some _ => 1 | None => 0 end) + length (whos t))%nat).
  { intros o a b t. change (whos ((o, a, b) :: t)) with ((match o with Some w => [w] | None => [] end) ++ whos t). rewrite app_length. destruct o; reflexivity. }
  assert (Z : forall q, (length (whos q) <= length q)%nat). { induction q as [|((o, a), b) t IH]; [cbn; auto|]. rewrite U. cbn [length]. destruct o; lia. }
  intros p L i k I. induction p as [|((o, a), b) t IH]; [contradiction|]. rewrite U in L. cbn [length] in L. specialize (Z t). destruct I as [E|I].
  - injection E as -> -> ->. lia.
  - apply IH; auto. destruct o; lia.
Qed.
Lemma rescan_to_step : forall n k d i s s1 s2, rdy s -> In d (putters s k) -> c_titem (comps s d) = Some i -> leave_to d s = (s1, Ok tt) ->
  item_enter n k i (PSorted (c_tprio (comps s d))) s1 = (s2, Ok tt) ->
  exists s3 p g, go_on d s2 = (s3, Ok tt) /\ tr s ((Some d, i, k) :: p) [] g s3 /\ rdy s3 /\ own p.
Proof.
  intros n k d i s s1 s2 R D TI E1 E2. destruct (leave_to_ok s d k R D) as (s1' & E1' & B1 & R1 & C1 & NP1 & T1). rewrite E1' in E1. injection E1 as <-.
  destruct (enter_cases _ _ _ _ _ _ _ R1 E2) as [(_ & FT & EN & R2)|(e & X & _)]; [|discriminate].
  destruct (tr_enters _ _ _ _ _ R1 FT EN) as (p & g & T & OW). apply own_whos in OW.
  destruct (go_on_ok s2 d (ry_e _ R2)) as (s3 & E3 & A1 & A2 & A3 & A4 & A5 & A6 & A7 & A8 & A9 & A10 & A11 & A12).
  assert (EE3 : EI s3). { assert (RR : frames RE (go_on d)) by (unfold go_on; rego). specialize (RR s2 (ry_e _ R2)). rewrite E3 in RR. exact RR. }
  assert (B3 : but d s2 s3). { constructor; auto; try (intros; unfold items, takers, putters; rewrite A3; tauto). rewrite A10. reflexivity. }
  assert (NT1 : forall j, ~ In d (takers s1' j)) by (intros j J; rewrite T1 in J; exact (ry_one _ R d j k J D)).
  assert (DG : ~ In d (map who g)). { intros X. apply in_who in X. destruct X as (i' & k' & X). apply (NT1 k'). eapply (t_give _ _ _ _ _ T); eauto. }
  assert (DP : ~ In d (whos ((None, i, k) :: p))). { intros X. apply in_whos in X. destruct X as (i' & k' & X). apply (NP1 k'). eapply (t_put _ _ _ _ _ T); eauto. }
  assert (NP2 : forall j, ~ In d (putters s2 j)) by (intros j J; apply (t_poth _ _ _ _ _ T d DP) in J; exact (NP1 _ J)).
  assert (NT2 : forall j, ~ In d (takers s2 j)) by (intros j J; apply (t_goth _ _ _ _ _ T d DG) in J; exact (NT1 _ J)).
  assert (NP3 : forall j, ~ In d (putters s3 j)) by (intros j; unfold putters; rewrite A3; apply NP2).
  assert (NT3 : forall j, ~ In d (takers s3 j)) by (intros j; unfold takers; rewrite A3; apply NT2).
  destruct (tr_but _ _ _ _ _ _ _ _ B1 T B3 DG DP) as (X1 & X2 & X3 & X4 & X5 & X6).
  exists s3, p, g. split; auto. split; [|split; auto].
  - constructor; auto.
    + intros x j k' J. destruct (X2 _ _ _ J) as (_ & Y). exact Y.
    + apply T.
    + intros x N. destruct (Nat.eq_dec x d) as [->|NE]; [|auto]. split.
      * rewrite A10. cbn [c_fitem w_titem w_onev w_sched w_status w_to]. destruct (t_goth _ _ _ _ _ T d DG) as (Y & _). rewrite Y, C1. reflexivity.
      * intros k'. split; intros J; [destruct (NT3 _ J) | destruct (ry_one _ R d k' k J D)].
    + intros w j k' [E|J]; [injection E as <- <- <-; auto|]. destruct (X4 w j k') as (_ & Y); [right; auto | exact Y].
    + change (whos ((Some d, i, k) :: p)) with (d :: whos p). constructor; [exact DP | exact (t_pnd _ _ _ _ _ T)].
    + intros x N. change (whos ((Some d, i, k) :: p)) with (d :: whos p) in N. cbn in N. apply X5; [intros ->; tauto|]. intros X. apply N. right. exact X.
  - apply rdy_but with (d := d) (s := s2); auto.
    + intros q. rewrite A3. apply R2.
    + rewrite A10. apply R2.
    + rewrite A10. constructor.
Qed.
Lemma rescan_to_ok : forall n k ds s s', rdy s -> rescan_to_loop n k ds s = (s', Ok tt) -> exists p g, tr s p [] g s' /\ rdy s' /\ own p.
Proof.
  intros n k. induction ds as [|d t IH]; intros s s' R E; cbn [rescan_to_loop] in E.
  { injection E as <-. exists [], []. split; [apply tr_refl|]. split; auto. intros i j []. }
  unfold bind at 1, get at 1 in E. destruct (inq d (qs s (QTo k))) eqn:D; [|apply IH; auto]. unfold bind at 1, get at 1 in E.
  destruct (xltb (Fin 0) (kmav s k)). 2: { injection E as <-. exists [], []. split; [apply tr_refl|]. split; auto. intros i j []. }
  apply inq_iff in D. destruct (leave_to_ok s d k R D) as (s1 & E1 & B1 & R1 & C1 & NP1 & T1). rewrite (bind_ok _ _ _ _ _ _ _ E1) in E.
  unfold bind at 1, get at 1 in E. rewrite C1 in E. destruct (c_titem (comps s d)) as [i|] eqn:TI; [|discriminate]. unfold bind at 1, get at 1 in E. rewrite C1 in E.
  destruct (item_enter n k i (PSorted (c_tprio (comps s d))) s1) as [s2 [[]|e]] eqn:E2. 2: { rewrite (bind_er _ _ _ _ _ _ _ E2) in E. discriminate. }
  rewrite (bind_ok _ _ _ _ _ _ _ E2) in E. destruct (rescan_to_step n k d i s s1 s2 R D TI E1 E2) as (s3 & p & g & E3 & T3 & R3 & O3).
  assert (E' : (go_on d ;;; rescan_to_loop n k t) s2 = (s', Ok tt)).
  { rewrite <- E. unfold go_on. rewrite !bind_assoc. unfold bind, setc, put, get. destruct (remove d _) as [s4 [a|e]]; auto.
    match goal with |- context [reschedule ?a ?b ?c ?e ?f ?z] => destruct (reschedule a b c e f z) as [s5 [b0|e0]]; auto end. }
  rewrite (bind_ok _ _ _ _ _ _ _ E3) in E'. destruct (IH s3 s' R3 E') as (p' & g' & T' & R' & O').
  exists (((Some d, i, k) :: p) ++ p'), (g ++ g'). split; [exact (tr_app _ _ _ _ _ _ _ _ _ T3 T')|]. split; auto.
  intros j k' J. apply in_app_iff in J. destruct J as [[J|J]|J]; [discriminate | exact (O3 _ _ J) | exact (O' _ _ J)].
Qed.
Lemma give_ok : forall s d i, EI s -> exists s', give d i s = (s', Ok tt) /\ qs s' = qs s /\ kcap s' = kcap s /\ kmav s' = kmav s /\ EI s' /\
  comps s' d = w_onev true (w_sched (Fin (now s)) (w_status Scheduled (w_fitem (Some i) (w_from [] (comps s d))))) /\ forall x, x <> d -> comps s' x = comps s x.
Proof.
  intros s d i EE. pose proof (re_give d i s EE) as RR. set (s2 := m_comp d (w_fitem (Some i)) (m_comp d (w_from []) s)).
  assert (EE2 : EI s2) by (unfold s2; apply EI_comp; [auto|]; apply EI_comp; auto).
  destruct (wake_up_ok s2 d EE2) as (s3 & E3 & U). exists s3. assert (G : give d i s = (s3, Ok tt)) by exact E3. rewrite G in RR. destruct U.
  split; [exact G|]. do 3 (split; [assumption|]). split; [exact RR|]. split; [rewrite up_self0; unfold s2 at 2; rewrite !comps_same; reflexivity|].
  intros x N. rewrite up_oth0 by auto. unfold s2. rewrite !comps_diff by auto. reflexivity.
Qed.
Lemma rescan_none : forall n k d l s, (forall i, In i l -> c_filter (comps s d) i = false) -> rescan_items n k d l s = (s, Ok tt).
Proof.
  intros n k d. induction l as [|i t IH]; intros s H; cbn [rescan_items]; [reflexivity|]. unfold bind at 1, get at 1. rewrite H by (left; auto).
  unfold bind at 1, ret at 1. apply IH. intros j J. apply H. right; auto.
Qed.
Lemma rescan_items_ok : forall n k d l s s', rdy s -> In d (takers s k) -> NoDup l -> (forall i j, In i l -> In j l -> c_filter (comps s d) i = true -> c_filter (comps s d) j = true -> i = j) ->
  rescan_items n k d l s = (s', Ok tt) -> exists p g, tr s p [] g s' /\ rdy s' /\ own p.
Proof.
  intros n k d. induction l as [|i t IH]; intros s s' R D N H E; cbn [rescan_items] in E.
  { injection E as <-. exists [], []. split; [apply tr_refl|]. split; auto. intros i j []. }
  inversion N as [|? ? N1 N2]; subst. unfold bind at 1, get at 1 in E. destruct (c_filter (comps s d) i) eqn:A.
  2: { unfold bind at 1, ret at 1 in E. eapply IH; eauto. intros a b Ia Ib. apply H; right; auto. }
  destruct (leave_from_ok s d k R D) as (s1 & E1 & B1 & R1 & C1 & NT1 & P1).
  destruct (item_leave n k i s1) as [s2 [[]|e]] eqn:E2.
  2: { unfold bind in E. rewrite E1, E2 in E. discriminate. }
  destruct (leave_ok _ _ _ _ _ R1 E2) as (I1 & L1 & R2 & _). destruct (tr_leaves _ _ _ _ R1 I1 L1) as (p & T & OW). apply own_whos in OW.
  destruct (give_ok s2 d i (ry_e _ R2)) as (s3 & E3 & A1 & A2 & A3 & A4 & A5 & A6).
  assert (E' : rescan_items n k d t s3 = (s', Ok tt)).
  { unfold bind at 1 in E. rewrite (bind_ok _ _ _ _ _ _ _ E1), (bind_ok _ _ _ _ _ _ _ E2), E3 in E. exact E. }
  assert (NP1 : forall j, ~ In d (putters s1 j)) by (intros j J; rewrite P1 in J; exact (ry_one _ R d k j D J)).
  assert (DP : ~ In d (whos p)). { intros X. apply in_whos in X. destruct X as (i' & k' & X). apply (NP1 k'). eapply (t_put _ _ _ _ _ T); eauto. }
  assert (DG : ~ In d (map who (@nil (nat * nat * nat)))) by (intros []).
  assert (NP2 : forall j, ~ In d (putters s2 j)) by (intros j J; apply (t_poth _ _ _ _ _ T d DP) in J; exact (NP1 _ J)).
  assert (NT2 : forall j, ~ In d (takers s2 j)) by (intros j J; apply (t_goth _ _ _ _ _ T d DG) in J; exact (NT1 _ J)).
  assert (NP3 : forall j, ~ In d (putters s3 j)) by (intros j; unfold putters; rewrite A1; apply NP2).
  assert (NT3 : forall j, ~ In d (takers s3 j)) by (intros j; unfold takers; rewrite A1; apply NT2).
  assert (B3 : but d s2 s3). { constructor; auto; try (intros; unfold items, takers, putters; rewrite A1; tauto). rewrite A5. reflexivity. }
  destruct (tr_but _ _ _ _ _ _ _ _ B1 T B3 DG DP) as (X1 & X2 & X3 & X4 & X5 & X6).
  assert (F3 : forall j, In j t -> c_filter (comps s3 d) j = false).
  { intros j J. rewrite X6. destruct (c_filter (comps s d) j) eqn:Z; auto. assert (i = j) by (apply H; auto; [left | right]; auto). subst j. contradiction. }
  rewrite (rescan_none _ _ _ _ _ F3) in E'. injection E' as <-. exists p, [(d, i, k)]. split; [|split; auto].
  - constructor; auto.
    + intros k' j. specialize (X1 k' j). change (map ik [(d, i, k)]) with [(i, k)]. change (cnt2 (map (@ik nat) []) j k') with O in X1. change (cnt2 [] j k') with O. lia.
    + intros x j k' [J|[]]. injection J as <- <- <-. split; auto. split; auto. split; [rewrite A5; reflexivity | auto].
    + cbn. constructor; [tauto | constructor].
    + intros x NX. cbn in NX. apply X3; [intros ->; tauto | intros []].
    + intros w j k' J. destruct (X4 _ _ _ J) as (_ & Y). exact Y.
    + apply T.
    + intros x NX. destruct (Nat.eq_dec x d) as [->|NE]; [|auto]. split.
      * rewrite A5. cbn [c_titem w_onev w_sched w_status w_fitem w_from]. destruct (t_poth _ _ _ _ _ T d DP) as (Y & _). rewrite Y, C1. reflexivity.
      * intros k'. split; intros J; [destruct (NP3 _ J) | destruct (ry_one _ R d k k' D J)].
  - apply rdy_but with (d := d) (s := s2); auto.
    + intros q. rewrite A1. apply R2.
    + rewrite A5. constructor.
    + rewrite A5. apply R2.
Qed.
(** no requester of store [k] can take more than one of the items that are in the store or wait to be put there *)
Definition about (s : env) (k i : nat) : Prop := In i (items s k) \/ exists w, In w (putters s k) /\ c_titem (comps s w) = Some i.
Definition modest (s : env) (k : nat) : Prop :=
  forall d i j, In d (takers s k) -> about s k i -> about s k j -> c_filter (comps s d) i = true -> c_filter (comps s d) j = true -> i = j.
Lemma cnt_in : forall l i, In i l <-> (cnt l i > 0)%nat. Proof. intros. apply count_occ_In. Qed.
Lemma cnt2_in : forall l i k, In (i, k) l <-> (cnt2 l i k > 0)%nat. Proof. intros. apply count_occ_In. Qed.
Lemma about_tr : forall s p o g s' k i, tr s p o g s' -> own p -> about s' k i -> about s k i.
Proof.
  intros s p o g s' k i T O [I|(w & W & I)].
  - apply cnt_in in I. pose proof (t_bal _ _ _ _ _ T k i) as B. assert (Z : (cnt (items s k) i > 0 \/ cnt2 (map ik p) i k > 0)%nat) by lia.
    destruct Z as [Z|Z]; [left; apply cnt_in; auto|]. apply cnt2_in in Z. apply in_map_iff in Z. destruct Z as (((w, i'), k') & E & J). unfold ik in E. cbn in E. injection E as -> ->.
    destruct w as [w|]; [|destruct (O _ _ J)]. right. exists w. destruct (t_put _ _ _ _ _ T _ _ _ J) as (A & B' & _). auto.
  - right. exists w. assert (N : ~ In w (whos p)). { intros X. apply in_whos in X. destruct X as (i' & k' & X). destruct (t_put _ _ _ _ _ T _ _ _ X) as (_ & _ & Y). exact (Y _ W). }
    destruct (t_poth _ _ _ _ _ T w N) as (X & Y). split; [apply Y; auto | congruence].
Qed.
Lemma takers_tr : forall s p o g s' k x, tr s p o g s' -> In x (takers s' k) -> In x (takers s k).
Proof.
  intros s p o g s' k x T I. apply (t_goth _ _ _ _ _ T x); auto. intros X. apply in_who in X. destruct X as (i' & k' & X). destruct (t_give _ _ _ _ _ T _ _ _ X) as (_ & _ & _ & Y). exact (Y _ I).
Qed.
Lemma modest_tr : forall s p o g s' k, tr s p o g s' -> own p -> modest s k -> modest s' k.
Proof.
  intros s p o g s' k T O M d i j D A B FA FB. rewrite (t_flt _ _ _ _ _ T) in FA, FB. apply (M d); auto; [eapply takers_tr | eapply about_tr | eapply about_tr]; eauto.
Qed.
Lemma own_app : forall p p', own p -> own p' -> own (p ++ p').
Proof. intros p p' A B i k I. apply in_app_iff in I. destruct I as [I|I]; [exact (A _ _ I) | exact (B _ _ I)]. Qed.
Lemma rescan_ok : forall n k s s', rdy s -> modest s k -> rescan n k s = (s', Ok tt) -> exists p g, tr s p [] g s' /\ rdy s' /\ own p.
Proof.
  intros n k s s' R M E. unfold rescan in E. unfold bind at 1, get at 1 in E. revert E. generalize (map fst (qs s (QFrom k))). intros ds. revert s s' R M.
  induction ds as [|d t IH]; intros s s' R M E; cbn [mfor] in E.
  { injection E as <-. exists [], []. split; [apply tr_refl|]. split; auto. intros i j []. }
  match type of E with bind ?m _ _ = _ => destruct (m s) as [s1 [[]|e]] eqn:E1 end. 2: { rewrite (bind_er _ _ _ _ _ _ _ E1) in E. discriminate. }
  rewrite (bind_ok _ _ _ _ _ _ _ E1) in E.
  assert (X : exists p g, tr s p [] g s1 /\ rdy s1 /\ own p).
  { unfold bind at 1, get at 1 in E1. destruct (inq d (qs s (QFrom k))) eqn:D; cbn [when] in E1.
    - apply inq_iff in D. unfold bind at 1, get at 1 in E1. eapply rescan_items_ok; eauto; [apply R|]. intros i j I J. apply M; auto; left; auto.
    - injection E1 as <-. exists [], []. split; [apply tr_refl|]. split; auto. intros i j []. }
  destruct X as (p & g & T & R1 & O1). destruct (IH s1 s' R1 (modest_tr _ _ _ _ _ _ T O1 M) E) as (p' & g' & T' & R' & O').
  exists (p ++ p'), (g ++ g'). split; [exact (tr_app _ _ _ _ _ _ _ _ _ T T')|]. split; auto using own_app.
Qed.
Lemma rescans_ok : forall n ks s s', rdy s -> (forall k, In k ks -> modest s k) -> mfor ks (rescan n) s = (s', Ok tt) -> exists p g, tr s p [] g s' /\ rdy s' /\ own p.
Proof.
  intros n. induction ks as [|k t IH]; intros s s' R M E; cbn [mfor] in E.
  { injection E as <-. exists [], []. split; [apply tr_refl|]. split; auto. intros i j []. }
  destruct (rescan n k s) as [s1 [[]|e]] eqn:E1. 2: { rewrite (bind_er _ _ _ _ _ _ _ E1) in E. discriminate. }
  rewrite (bind_ok _ _ _ _ _ _ _ E1) in E. destruct (rescan_ok n k s s1 R (M k (or_introl eq_refl)) E1) as (p & g & T & R1 & O1).
  destruct (IH s1 s' R1) as (p' & g' & T' & R' & O'); auto. { intros k' I. eapply modest_tr; eauto. apply M. right; auto. }
  exists (p ++ p'), (g ++ g'). split; [exact (tr_app _ _ _ _ _ _ _ _ _ T T')|]. split; auto using own_app.
Qed.
