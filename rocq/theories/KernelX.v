(** The event list invariant for all operations, and reachable states. *)
From Coq Require Import QArith Lqa List Bool Arith ZArith Lia.
From Verif Require Import Base Kernel Wp KernelE KernelL.
Import ListNotations.
Open Scope Q_scope.

(** ** Order of the event list *)
Definition ev_le (a b : ev) : Prop :=
  e_t a < e_t b \/ (e_t a == e_t b /\ (xlt (e_prio a) (e_prio b) \/ (xeq (e_prio a) (e_prio b) /\ (e_seq a <= e_seq b)%Z))).

Lemma ev_ltb_iff : forall a b, ev_ltb a b = true <->
  e_t a < e_t b \/ (e_t a == e_t b /\ (xlt (e_prio a) (e_prio b) \/ (xeq (e_prio a) (e_prio b) /\ (e_seq a < e_seq b)%Z))).
Proof.
  intros. unfold ev_ltb. rewrite orb_true_iff, andb_true_iff, orb_true_iff, andb_true_iff, Qltb_iff, Qeq_bool_iff,
    xltb_iff, xeqb_iff, Z.ltb_lt. tauto.
Qed.
Lemma ev_ltb_false : forall a b, ev_ltb b a = false -> ev_le a b.
Proof.
  intros a b H. assert (N : ~ (ev_ltb b a = true)) by congruence. rewrite ev_ltb_iff in N. unfold ev_le.
  destruct (Qlt_le_dec (e_t a) (e_t b)); auto. destruct (Qlt_le_dec (e_t b) (e_t a)); [tauto|].
  right. split; [lra|]. assert (e_t b == e_t a) by lra.
  destruct (xtri (e_prio a) (e_prio b)) as [|[|]]; auto; [|tauto].
  right. split; auto. destruct (Z.le_gt_cases (e_seq a) (e_seq b)); auto. exfalso. apply N. right. split; auto. right.
  split; [apply xeq_sym; auto | lia].
Qed.
Lemma ev_le_refl : forall a, ev_le a a.
Proof. intros. right. split; [lra|]. right. split; [apply xeq_refl | lia]. Qed.
Lemma ev_le_trans : forall a b c, ev_le a b -> ev_le b c -> ev_le a c.
Proof.
  intros a b c [A|(A & B)] [C|(C & D)]; try (left; lra).
  right. split; [lra|]. destruct B as [B|(B & B')], D as [D|(D & D')].
  - left. eapply xlt_trans; eauto.
  - left. eapply xlt_le_trans; [eauto | apply xeq_le; auto].
  - left. eapply xle_lt_trans; [apply xeq_le; eauto | auto].
  - right. split; [eapply xeq_trans; eauto | lia].
Qed.
Lemma ev_min_spec : forall l x, (ev_min x l = x \/ In (ev_min x l) l) /\ ev_le (ev_min x l) x /\
  forall e, In e l -> ev_le (ev_min x l) e.
Proof.
  induction l as [|y t IH]; intros x; cbn [ev_min].
  - split; auto. split; [apply ev_le_refl | intros e []].
  - destruct (ev_ltb y x) eqn:E.
    + destruct (IH y) as (A & B & C). split; [destruct A; auto; right; [left; congruence | right; auto]|].
      assert (YX : ev_le y x).
      { apply ev_ltb_iff in E. unfold ev_le.
        destruct E as [E|(E & [E2|(E2 & E3)])]; auto. right. split; auto. right. split; auto. lia. }
      split; [eapply ev_le_trans; eauto|]. intros e [<-|I]; auto.
    + destruct (IH x) as (A & B & C). split; [destruct A; auto; right; right; auto|].
      split; auto. intros e [<-|I]; auto. eapply ev_le_trans; [exact B|]. apply ev_ltb_false; auto.
Qed.
Lemma ev_del_seq_split : forall l1 e l2, NoDup (map e_seq (l1 ++ e :: l2)) ->
  ev_del_seq (e_seq e) (l1 ++ e :: l2) = l1 ++ l2.
Proof.
  intros l1 e l2 H. unfold ev_del_seq. rewrite filter_app. cbn [filter]. rewrite Z.eqb_refl. cbn [negb].
  rewrite map_app in H. cbn in H. apply NoDup_remove_2 in H. rewrite in_app_iff in H.
  assert (K : forall l, ~ In (e_seq e) (map e_seq l) -> filter (fun x => negb (e_seq x =? e_seq e)%Z) l = l).
  { induction l as [|y t IH]; intros N; cbn; auto. cbn in N.
    destruct (Z.eqb_spec (e_seq y) (e_seq e)); [tauto|]. cbn. rewrite IH; auto. }
  rewrite !K; tauto.
Qed.
Lemma ev_pop_spec : forall l e l', NoDup (map e_seq l) -> ev_pop l = Some (e, l') ->
  exists l1 l2, l = l1 ++ e :: l2 /\ l' = l1 ++ l2 /\ forall x, In x l -> ev_le e x.
Proof.
  intros l e l' ND H. destruct l as [|x t]; unfold ev_pop in H; [discriminate|].
  assert (E1 : e = ev_min x t) by congruence. assert (E2 : l' = ev_del_seq (e_seq (ev_min x t)) (x :: t)) by congruence.
  rewrite E1, E2. clear H E1 E2 e l'.
  destruct (ev_min_spec t x) as (A & B & C). set (m := ev_min x t) in *.
  assert (I : In m (x :: t)) by (destruct A; [left; congruence | right; auto]).
  apply in_split in I. destruct I as (l1 & l2 & E). exists l1, l2. rewrite E in *.
  split; auto. split; [apply ev_del_seq_split; auto|].
  intros y Hy. rewrite <- E in Hy. destruct Hy as [<-|Hy]; auto.
Qed.
Lemma ev_pop_none : forall l, ev_pop l = None -> l = [].
Proof. destruct l; cbn; [auto | discriminate]. Qed.
Lemma NoDup_abs_seq : forall l, NoDup (map (fun e => Z.abs (e_seq e)) l) -> NoDup (map e_seq l).
Proof.
  intros l H. rewrite <- (map_map e_seq Z.abs) in H. eapply NoDup_map_inv; eauto.
Qed.

(** ** EI of the remaining operations *)
(** remove c; status scheduled; reschedule *)
Lemma re_rrs : forall c t p u cap, frames RE (remove c ;;; setc c (w_status Scheduled) ;;; reschedule c t p u cap).
Proof.
  intros. apply RE_intro. intros s H. apply wp_bind. apply w_remove; auto. intros s1 H1 O1 _ _.
  apply wp_bind, wp_setc. apply status_resched; auto with eeq.
Qed.
Lemma re_rrs_k : forall A c p u cap (k : unit -> M A), (forall x, frames RE (k x)) ->
  frames RE (remove c ;;; setc c (w_status Scheduled) ;;;
     n <- get now ;; x <- reschedule c (Fin n) p u cap ;; k x).
Proof.
  intros. apply RE_intro. intros s Hs. apply wp_bind. apply w_remove; auto. intros s1 H1 O1 _ _.
  apply wp_bind, wp_setc. apply wp_bind, wp_get, wp_bind. wcall status_resched; auto with eeq.
  intros x s2 H2. apply w_re; auto.
Qed.
Lemma re_rrs_0 : forall c p u cap,
  frames RE (remove c ;;; setc c (w_status Scheduled) ;;; n <- get now ;; reschedule c (Fin n) p u cap).
Proof.
  intros. apply RE_intro. intros s Hs. apply wp_bind. apply w_remove; auto. intros s1 H1 O1 _ _.
  apply wp_bind, wp_setc. apply wp_bind, wp_get. apply status_resched; auto with eeq.
Qed.
Ltac re1 := first [ apply re_rrs_k; intros | apply re_rrs_0 | fstep RE_po ].
Ltac rego := repeat re1; try re_eq.

Lemma re_c_trywait : forall c, frames RE (c_trywait c).
Proof. intros. unfold c_trywait. rego. apply RE_of_Eeq; auto with eeq. Qed.
Lemma re_s_trywait : forall l m, frames RE (s_trywait l m).
Proof. induction l; intros m; cbn; rego; auto using re_c_trywait. Qed.
Lemma re_st_set : forall st v, frames RE (st_set st v).
Proof. intros. unfold st_set, set_sval, st_trywait. rego; auto using re_s_trywait. Qed.
Lemma re_st_trigger : forall st v a m, frames RE (st_trigger st v a m).
Proof. intros. unfold st_trigger, set_sval, st_trywait. rego; auto using re_s_trywait. Qed.
(** unsuccessful: nothing changed; successful: no waits *)
Lemma c_trywait_cases : forall c s,
  wp (c_trywait c) (fun b s' => (b = false /\ s' = s) \/ (b = true /\ c_waits (comps s' c) = [])) (fun _ _ => True) s.
Proof.
  intros. unfold c_trywait. apply wp_bind, wp_stat. apply wp_if; intros C; [apply wp_ret; auto|].
  apply wp_bind, wp_get, wp_if; intros C2; [|apply wp_ret; auto].
  apply wp_bind, wp_get, wp_bind.
  eapply wp_conseq; [apply wp_of_fst with (I := fun _ => True); auto | cbv beta | auto].
  intros _ s1 _. apply wp_bind, wp_setc.
  match goal with |- wp _ _ _ ?s2 => set (s3 := s2); assert (N : c_waits (comps s3 c) = []) by (unfold s3; rewrite comps_same; reflexivity) end.
  clearbody s3. unfold remove, reschedule, push.
  set (R := fun s s' => c_waits (comps s c) = [] -> c_waits (comps s' c) = []).
  assert (PO : preorder R) by (constructor; unfold R; auto).
  assert (KC : forall f s, c_waits (f (comps s c)) = c_waits (comps s c) -> R s (m_comp c f s)).
  { unfold R. intros f s4 E. rewrite comps_same. congruence. }
  apply wp_bind.
  eapply wp_conseq; [apply (frames_wp _ R _ s3) | cbv beta | auto].
  { fgo PO; try (apply KC; reflexivity); unfold R; auto. }
  intros _ s4 E4. apply wp_bind. eapply wp_conseq; [apply (frames_wp _ R _ s4) | cbv beta | auto].
  { fgo PO; try (apply KC; reflexivity); unfold R; auto. }
  intros _ s5 E5. apply wp_bind, wp_get, wp_bind. eapply wp_conseq; [apply (frames_wp _ R _ s5) | cbv beta | auto].
  { fgo PO; try (apply KC; reflexivity); unfold R; auto. }
  intros _ s6 E6. apply wp_ret. right. split; auto.
Qed.
(** the end of wait and wait_for *)
Lemma w_wait_end : forall c t p u cap s, EI s -> Off c s ->
  wp (c_trywait c ;;; ws' <- get (fun s => c_waits (comps s c)) ;;
      when (nonnil ws') (setc c (w_status Waiting) ;;; reschedule c t p u cap))
     (fun _ s' => EI s') (fun _ s' => EI s') s.
Proof.
  intros c t p u cap s H O. apply wp_bind.
  eapply wp_conseq; [apply wp_and; [apply c_trywait_cases | apply (frames_wp _ RE _ s (re_c_trywait c))] | |]; cbv beta; unfold RE.
  2: { intros. tauto. }
  intros b s1 ([(-> & ->)|(-> & W)] & E); apply wp_bind, wp_get, wp_when; intros C; auto.
  - apply wp_bind, wp_setc. apply status_resched; auto with eeq.
  - rewrite W in C. discriminate.
Qed.
(** start of request, wait, wait_for, from_store, to_store: if not current, c leaves the event list *)
Lemma w_enter_call : forall c st s (Q : unit -> env -> Prop), EI s -> st = c_status (comps s c) ->
  (forall s', EI s' -> Off c s' -> Q tt s') ->
  wp (when (negb (steqb st Current)) (check_notdata c ;;; check_notmain c ;;; remove c ;;; check_fail c))
     Q (fun _ s' => EI s') s.
Proof.
  intros c st s Q H -> K. apply wp_when; intros C.
  - apply wp_bind. apply w_eeq; auto with eeq. intros _ s1 E1 H1.
    apply wp_bind. apply w_eeq; auto with eeq. intros _ s1' E1' H1'.
    apply wp_bind. apply w_remove; auto. intros s2 H2 O2 _ _.
    apply w_eeq; auto with eeq. intros [] s3 E3 H3. apply K; auto. eapply Off_Eeq; eauto.
  - apply K; auto. apply EI_stat_off; auto. apply negb_false_iff, steqb_iff in C. rewrite C. apply not_schedst_cur.
Qed.
(** a stretch of code that changes nothing EI looks at *)
Lemma w_eeq_off : forall A (m : M A) c0 (Q : A -> env -> Prop) s,
  frames Eeq m -> EI s -> Off c0 s -> (forall a s', EI s' -> Off c0 s' -> Q a s') -> wp m Q (fun _ s' => EI s') s.
Proof. intros. apply w_eeq; auto. intros. apply H2; auto. eapply Off_Eeq; eauto. Qed.
Ltac eoff c := apply wp_bind; apply w_eeq_off with (c0 := c); [solve [fe; auto with eeq] | assumption | assumption | intros ? ? ? ?].

Lemma re_wait : forall c a al f p u cap, frames RE (wait c a al f p u cap).
Proof.
  intros. apply RE_intro. intros s H. unfold wait.
  apply wp_bind, wp_setc. apply wp_bind, wp_stat. apply wp_bind. apply w_enter_call; auto.
  { eapply EI_Eeq; [exact H | apply Eeq_m_comp; reflexivity]. }
  intros s1 H1 O1. do 8 eoff c. apply w_wait_end; auto.
Qed.
Lemma re_wait_for : forall c a al f p u cap, frames RE (wait_for c a al f p u cap).
Proof.
  intros. apply RE_intro. intros s H. unfold wait_for.
  apply wp_bind, wp_stat. apply wp_bind. apply w_enter_call; auto.
  intros s1 H1 O1. do 8 eoff c. apply w_wait_end; auto.
Qed.

(** stores *)
Lemma re_give : forall d c, frames RE (give d c).
Proof. intros. unfold give. rego. Qed.
Lemma re_item : forall n, (forall k c w, frames RE (item_enter n k c w)) /\ (forall k c, frames RE (item_leave n k c)).
Proof.
  induction n as [|n [IH1 IH2]]; split; intros; cbn; rego; auto using re_give;
    apply RE_of_Eeq; auto with eeq.
Qed.
Lemma re_item_enter : forall n k c w, frames RE (item_enter n k c w). Proof. intros. apply re_item. Qed.
Lemma re_item_leave : forall n k c, frames RE (item_leave n k c). Proof. intros. apply re_item. Qed.
Lemma re_from_store : forall n c ks f key rp fl fp u cap, frames RE (from_store n c ks f key rp fl fp u cap).
Proof.
  intros. apply RE_intro. intros s H. unfold from_store.
  apply wp_bind. apply wp_when; intros C0; [apply wp_raise; auto|].
  apply wp_bind, wp_stat. apply wp_bind. apply w_enter_call; auto.
  intros s1 H1 O1. do 2 eoff c. apply wp_bind, wp_get.
  match goal with |- wp (match ?x with _ => _ end) _ _ _ => destruct x as [[i|] k] end.
  - apply w_re; auto. rego. apply re_item_leave.
  - do 2 eoff c. apply wp_bind, wp_setc, wp_bind, wp_setc, wp_bind, wp_setc.
    match goal with HE : EI ?s0, HO : Off c ?s0 |- wp _ _ _ (m_comp c _ (m_comp c _ (m_comp c _ ?s0))) => 
      apply w_resched; [repeat (apply EI_off_upd' || apply Off_same); auto | repeat apply Off_same; auto | rewrite !comps_same; cbn; auto with eeq] end.
Qed.
Lemma to_try_false : forall n c i p ks s,
  wp (to_try n c i p ks) (fun b s' => b = false -> s' = s) (fun _ _ => True) s.
Proof.
  induction ks as [|k t IH]; intros s; cbn [to_try].
  - apply wp_ret. auto.
  - apply wp_bind, wp_get, wp_if; intros C; [|apply IH].
    repeat (apply wp_bind; eapply wp_conseq; [apply wp_of_fst with (I := fun _ => True); auto | cbv beta; intros ? ? _ | auto]).
    apply wp_ret. discriminate.
Qed.
Lemma re_to_try : forall n c i p ks, frames RE (to_try n c i p ks).
Proof. induction ks; cbn; rego; auto using re_item_enter. Qed.
Lemma re_to_store : forall n c ks i rp p fl fp u cap, frames RE (to_store n c ks i rp p fl fp u cap).
Proof.
  intros. apply RE_intro. intros s H. unfold to_store.
  apply wp_bind. apply wp_when; intros C0; [apply wp_raise; auto|].
  apply wp_bind, wp_stat. apply wp_bind. apply w_enter_call; auto.
  intros s1 H1 O1. eoff c. eoff c. apply wp_bind.
  match goal with |- wp _ _ _ ?s0 => eapply wp_conseq; [apply wp_and; [apply to_try_false |
     apply (frames_wp _ RE _ s0 (re_to_try _ _ _ _ _))] | |]; cbv beta; unfold RE end; [|intros; tauto].
  intros b s2 (A & B). apply wp_if; intros C; [apply wp_ret; auto|]. rewrite (A C) in *. clear A B.
  eoff c. apply wp_bind, wp_setc, wp_bind, wp_setc, wp_bind, wp_setc, wp_bind, wp_setc.
  match goal with HE : EI ?s0, HO : Off c ?s0 |- wp _ _ _ (m_comp c _ (m_comp c _ (m_comp c _ (m_comp c _ ?s0)))) => 
      apply w_resched; [repeat (apply EI_off_upd' || apply Off_same); auto | repeat apply Off_same; auto | rewrite !comps_same; cbn; auto with eeq] end.
Qed.
Lemma re_rescan_items : forall n k d l, frames RE (rescan_items n k d l).
Proof. induction l; cbn; rego; auto using re_item_leave, re_give. apply RE_of_Eeq; auto with eeq. Qed.
Lemma re_rescan : forall n k, frames RE (rescan n k).
Proof. intros. unfold rescan. rego; auto using re_rescan_items. Qed.
Lemma re_set_filter : forall n c f, frames RE (set_filter n c f).
Proof. intros. unfold set_filter. rego; auto using re_rescan. Qed.
Lemma re_rescan_to_loop : forall n k l, frames RE (rescan_to_loop n k l).
Proof. induction l; cbn; rego; auto using re_item_enter; apply RE_of_Eeq; auto with eeq. Qed.
Lemma re_st_set_cap : forall n k cap, frames RE (st_set_cap n k cap).
Proof. intros. unfold st_set_cap, set_kmav. rego; auto using re_rescan_to_loop. Qed.

(** cancel and the end of a process *)
Lemma w_release_all : forall n c l s, EI s -> quiet c s ->
  wp (mfor l (fun r => release1 n c r None false)) (fun _ s' => EI s' /\ quiet c s') (fun _ s' => EI s') s.
Proof.
  intros n c l s H K. apply wp_mfor_inv with (I := fun s' => EI s' /\ quiet c s'); auto.
  intros r s2 _ (H2 & K2). eapply wp_conseq; [apply wp_and; [apply (frames_wp _ RE _ s2 (re_release1 n c r None false))
    | apply (frames_wp _ _ _ s2 (q_release1 c n c r None false))] | |]; cbv beta; unfold RE, Rq; intuition.
Qed.
Lemma re_cancel : forall n c s, EI s -> EL s -> wp (cancel n c) (fun _ s' => EI s') (fun _ s' => EI s') s.
Proof.
  intros n c s H L. unfold cancel. apply wp_bind, wp_stat. apply wp_if; intros C1; [apply wp_ret; auto|].
  assert (T : forall s', EI s' -> quiet c s' ->
    wp (cl <- get (fun s => c_claims (comps s c)) ;;
        mfor (keys cl) (fun r => release1 n c r None false) ;;;
        setc c (w_sched PInf) ;;; setc c (w_status Data)) (fun _ s' => EI s') (fun _ s' => EI s') s').
  { intros s' H' K'. apply wp_bind, wp_get. apply wp_bind. wcall w_release_all; auto.
    intros _ s2 (H2 & N2 & O2). wgo. repeat (apply EI_off_upd' || apply Off_same); auto. }
  apply wp_bind, wp_when; intros C2.
  - apply wp_bind. apply w_remove; auto. intros s1 H1 O1 _ _.
    eapply wp_conseq; [apply wp_and; [apply (w_check_fail_noreq c s1 (fun _ _ => True)); auto
       | apply w_eeq with (Q := fun _ s' => EI s' /\ Off c s'); auto with eeq] | |]; cbv beta; [| | tauto].
    + intros _ s2 E2 H2. split; auto. eapply Off_Eeq; eauto.
    + intros _ s2 (A & B & C). apply T; auto. split; auto.
  - apply negb_false_iff, steqb_iff in C2. apply T; auto. split.
    + apply (proj1 (L c)). rewrite C2. auto with idle.
    + apply EI_stat_off; auto. rewrite C2. apply not_schedst_cur.
Qed.
Lemma re_terminate : forall n c s, EI s -> EL s -> c_status (comps s c) = Current ->
  wp (terminate n c) (fun _ s' => EI s') (fun _ s' => EI s') s.
Proof.
  intros n c s H L S. unfold terminate. apply wp_bind, wp_get. apply wp_bind. wcall w_release_all; auto.
  - split.
    + apply (proj1 (L c)). rewrite S. auto with idle.
    + apply EI_stat_off; auto. rewrite S. apply not_schedst_cur.
  - intros _ s2 (H2 & N2 & O2). wgo. repeat (apply EI_off_upd' || apply Off_same); auto.
Qed.

(** scheduler *)
Lemma re_continue : forall n c, frames RE (continue n c).
Proof. intros. unfold continue. rego. apply re_r_try. Qed.
Lemma EI_pop : forall s l1 e l2, EI s -> evl s = l1 ++ e :: l2 -> (forall x, In x (evl s) -> ev_le e x) ->
  EI (s_now (e_t e) (m_comp (e_c e) (w_onev false) (s_evl (l1 ++ l2) s))).
Proof.
  intros s l1 e l2 H E M. pose proof (EI_del _ _ _ _ H E) as D. destruct D. constructor; cbn in *; auto.
  intros x Hx. assert (I : In x (evl s)). { rewrite E. rewrite in_app_iff in *. cbn. tauto. }
  destruct (M x I) as [L|(L & _)]; lra.
Qed.
Lemma EI_put : forall s s', EI s -> Eeq s s' -> EI s'. Proof. intros. eapply EI_Eeq; eauto. Qed.
Lemma re_step : forall n, frames RE (step n).
Proof.
  intros n. apply RE_intro. intros s H.
  assert (EV : forall s1, EI s1 -> wp (step_event n) (fun _ s' => EI s') (fun _ s' => EI s') s1).
  { clear s H. intros s H. unfold step_event. apply wp_bind, wp_get. apply wp_bind.
    apply wp_conseq with (Q := fun _ s1 => EI s1) (X := fun _ s1 => EI s1); auto.
    { apply wp_when; intros; wgo; auto. eapply EI_Eeq; [exact H | eeq]. }
    intros _ s1 H1. apply wp_bind, wp_get.
    assert (T : forall c s', EI s' -> Off c s' -> wp (put (s_cur c) ;;; setc c (w_status Current) ;;; setc c (w_sched PInf) ;;;
       if Nat.eqb c main then put (s_running false) else check_fail c ;;; continue n c) (fun _ s' => EI s') (fun _ s' => EI s') s').
    { intros c s' H' O'. apply wp_bind, wp_put, wp_bind, wp_setc, wp_bind, wp_setc.
      match goal with |- wp _ _ _ ?s0 => set (s2 := s0); assert (E2 : EI s2) end.
      { unfold s2. repeat (apply EI_off_upd' || apply Off_same); auto. eapply EI_Eeq; [exact H' | eeq]. }
      apply wp_if; intros _.
      - apply wp_put. eapply EI_Eeq; [exact E2 | eeq].
      - apply wp_bind. apply w_eeq; auto with eeq. intros _ s3 E3 H3. apply w_re; auto using re_continue. }
    destruct (ev_pop (evl s1)) as [[e l']|] eqn:EP.
    - apply ev_pop_spec in EP. 2: { apply NoDup_abs_seq. apply (ei_snd _ H1). }
      destruct EP as (l1 & l2 & E & -> & M).
      apply wp_bind, wp_bind, wp_put, wp_ret. cbv zeta. apply wp_bind, wp_bind, wp_setc, wp_put.
      apply T; [apply EI_pop; auto|]. unfold Off. cbn. unfold upd. rewrite Nat.eqb_refl. reflexivity.
    - apply ev_pop_none in EP. apply wp_bind, wp_ret. cbv zeta.
      assert (O1 : Off main s1).
      { unfold Off. destruct (c_onev (comps s1 main)) eqn:X; auto. apply (ei_onev _ H1) in X. rewrite EP in X. destruct X. }
      apply wp_bind, wp_bind, wp_setc, wp_bind, wp_get, wp_when; intros _; [apply wp_put|]; apply T.
      + apply EI_Eeq with (s := m_comp main (w_onev false) s1); [apply EI_off_upd; auto | eeq].
      + unfold Off. cbn. unfold upd. reflexivity.
      + apply EI_off_upd; auto.
      + unfold Off. rewrite comps_same. reflexivity. }
  unfold step. apply wp_bind, wp_get. apply wp_bind, wp_get. apply wp_bind, wp_get.
  destruct (if c_skip (comps s (cur s)) then [] else pend s) as [|c t]; [apply EV; auto|].
  apply wp_bind, wp_put. apply wp_bind, wp_stat.
  match goal with |- wp _ _ _ ?s0 => assert (E1 : EI s0) by (eapply EI_Eeq; [exact H | eeq]) end.
  apply wp_if; intros C.
  - apply steqb_iff in C. apply wp_bind, wp_setc, wp_bind, wp_setc, wp_bind, wp_put.
    match goal with |- wp _ _ _ ?s0 => set (s2 := s0); assert (E2 : EI s2) end.
    { unfold s2. match goal with |- EI (s_cur _ ?s0) => apply EI_Eeq with (s := s0); [|eeq] end.
      repeat (apply EI_off_upd' || apply Off_same); auto;
        apply EI_stat_off; auto; rewrite C; apply not_schedst_std. }
    apply wp_if; intros _; [apply wp_raise; auto|]. apply w_re; auto using re_continue.
  - apply EV; auto.
Qed.
Lemma re_run : forall sp p u cap s, EI s -> c_status (comps s main) = Current ->
  wp (run sp p u cap) (fun _ s' => EI s') (fun _ s' => EI s') s.
Proof.
  intros sp p u cap s H S. unfold run.
  assert (O : Off main s) by (apply EI_stat_off; auto; rewrite S; apply not_schedst_cur).
  do 2 eoff main. apply wp_bind, wp_setc, wp_bind. wcall status_resched; auto with eeq.
  intros _ s9 H9. apply wp_put. eapply EI_Eeq; [exact H9 | eeq].
Qed.

(** ** Executions *)
(** What user code has to respect for the statements about all executions (each restriction is a call
    that the code does accept but that breaks its own bookkeeping, or that makes no sense):
    - component ids are created once, and main is never created nor put on standby, and main does
      not request or wait;
    - remaining_duration is not set on a data component;
    - request has arguments, and a component does not bump itself from a preemptive resource;
    - the process of a component ends while it is current;
    - run is called by main, and the scheduler steps when the current component has given up control;
    - nothing is done after the clock has become inf. *)
Definition wf (s : env) (o : op) : Prop :=
  ended s = false /\
  match o with
  | OCreate c _ _ _ _ _ _ => c <> main /\ pristine s c
  | OStandby c => c <> main
  | ORemaining c _ _ _ => c_status (comps s c) <> Data
  | ORequest c args _ _ _ _ _ => c <> main /\ args <> [] /\ no_selfbump c args s
  | OWait c _ _ _ _ _ _ | OWaitFor c _ _ _ _ _ _ => c <> main
  | OFromStore c _ _ _ _ _ _ _ _ | OToStore c _ _ _ _ _ _ _ _ => c <> main
  | OStep => c_status (comps s (cur s)) <> Current
  | OEnd => cur s <> main /\ c_status (comps s (cur s)) = Current
  | ORun _ _ _ _ => cur s = main /\ c_status (comps s main) = Current
  | _ => True
  end.

(** exceptions that user code may catch and continue after (an exception out of [step] ends the run;
    a request that raised leaves a component that is current and still requesting behind) *)
Definition caught (o : op) (e : exn) : Prop :=
  e <> OutOfFuel /\ e <> Unmodelled /\
  match o with ORequest _ _ _ _ _ _ _ | OStep | OEnd => False | _ => True end.

(** one operation of user code or of the scheduler *)
Definition does (s : env) (o : op) (s' : env) : Prop :=
  wf s o /\ exists n r, exec n o s = (s', r) /\ (forall e, r = Er e -> caught o e).
(** any number of operations that satisfy P *)
Inductive runs (P : env -> op -> Prop) : env -> env -> Prop :=
| runs_refl : forall s, runs P s s
| runs_step : forall s s1 o s2, runs P s s1 -> P s1 o -> does s1 o s2 -> runs P s s2.
Definition anyop (s : env) (o : op) : Prop := True.
(** the states that can occur: after any operations, from any initial configuration *)
Definition reach (s : env) : Prop :=
  exists t0 R sv kc hp y d, runs anyop (init t0 R sv kc hp y d) s.

Lemma runs_trans : forall P a b c, runs P a b -> runs P b c -> runs P a c.
Proof. intros P a b c H K. induction K; auto. eapply runs_step; [apply IHK; auto | eauto | eauto]. Qed.
Lemma runs_mono : forall (P P' : env -> op -> Prop), (forall s o, P s o -> P' s o) -> forall a b, runs P a b -> runs P' a b.
Proof. intros P P' I a b H. induction H; [constructor|]. eapply runs_step; [apply IHruns; auto | eauto | eauto]. Qed.
Lemma runs_any : forall P a b, runs P a b -> runs anyop a b.
Proof. intros P a b H. apply (runs_mono P); auto. intros; exact Logic.I. Qed.
Lemma reach_runs : forall P s s', reach s -> runs P s s' -> reach s'.
Proof.
  intros P s s' (t0 & R & sv & kc & hp & y & d & H) K. exists t0, R, sv, kc, hp, y, d.
  eapply runs_trans; [exact H | eapply runs_any; eauto].
Qed.
(** induction principles *)
Lemma runs_inv : forall (P : env -> op -> Prop) (I : env -> Prop),
  (forall s o s', I s -> P s o -> does s o s' -> I s') -> forall s s', runs P s s' -> I s -> I s'.
Proof. intros P I H s s' R. induction R; intros; auto. eapply H; [apply IHR; auto | eauto | eauto]. Qed.
Lemma reach_ind' : forall (I : env -> Prop),
  (forall t0 R sv kc hp y d, I (init t0 R sv kc hp y d)) ->
  (forall s o s', reach s -> I s -> does s o s' -> I s') -> forall s, reach s -> I s.
Proof.
  intros I H0 H1 s (t0 & R & sv & kc & hp & y & d & H). remember (init t0 R sv kc hp y d) as i eqn:E.
  induction H; subst; auto. eapply H1; [|apply IHruns; auto|eauto]. exists t0, R, sv, kc, hp, y, d. auto.
Qed.
Lemma does_wp : forall s o s' (Q : unit -> env -> Prop) (X : exn -> env -> Prop), does s o s' ->
  (forall n, wp (exec n o) Q X s) -> (exists a, Q a s') \/ (exists e, caught o e /\ X e s').
Proof.
  intros s o s' Q X (W & n & r & E & C) H. specialize (H n). unfold wp in H. rewrite E in H.
  destruct r as [a|e]; [left; eauto | right; eauto].
Qed.

(** the same as functions, to run concrete scripts *)
Definition wfb (s : env) (o : op) : bool :=
  negb (ended s) &&
  match o with
  | OCreate c _ _ _ _ _ _ => negb (Nat.eqb c main) && pristineb (comps s c)
  | OStandby c => negb (Nat.eqb c main)
  | ORemaining c _ _ _ => negb (steqb (c_status (comps s c)) Data)
  | ORequest c args _ _ _ _ _ =>
      negb (Nat.eqb c main) && nonnil args &&
      forallb (fun a => negb (r_preempt (rsc s (fst (fst a)))) || negb (memb c (map fst (qs s (QClaim (fst (fst a))))))) args
  | OWait c _ _ _ _ _ _ | OWaitFor c _ _ _ _ _ _ => negb (Nat.eqb c main)
  | OFromStore c _ _ _ _ _ _ _ _ | OToStore c _ _ _ _ _ _ _ _ => negb (Nat.eqb c main)
  | OStep => negb (steqb (c_status (comps s (cur s))) Current)
  | OEnd => negb (Nat.eqb (cur s) main) && steqb (c_status (comps s (cur s))) Current
  | ORun _ _ _ _ => Nat.eqb (cur s) main && steqb (c_status (comps s main)) Current
  | _ => true
  end.
Lemma wfb_wf : forall s o, wfb s o = true -> wf s o.
Proof.
  intros s o H. unfold wfb in H. apply andb_true_iff in H. destruct H as [H1 H]. apply negb_true_iff in H1. split; auto.
  destruct o; auto; rewrite ?andb_true_iff, ?negb_true_iff, ?Nat.eqb_neq, ?Nat.eqb_eq, ?steqb_false_iff, ?steqb_iff in H; auto.
  destruct H as ((A & B) & C). split; auto. split; [exact (proj1 (nonnil_true _ _) B)|].
  intros r q p I P K. rewrite forallb_forall in C. specialize (C _ I). cbn in C. rewrite P in C. cbn in C.
  apply negb_true_iff, memb_false_iff in C. auto.
Qed.
Fixpoint script (n : nat) (l : list op) (s : env) : option env :=
  match l with
  | [] => Some s
  | o :: t => if wfb s o then match exec n o s with (s', Ok _) => script n t s' | _ => None end else None
  end.
Lemma script_runs : forall n l s s', script n l s = Some s' -> runs anyop s s'.
Proof.
  induction l as [|o t IH]; intros s s' H; cbn [script] in H.
  - injection H as <-. constructor.
  - destruct (wfb s o) eqn:W; [|discriminate]. destruct (exec n o s) as [s1 [a|e]] eqn:E; [|discriminate].
    eapply runs_trans; [|apply IH; eauto]. eapply runs_step with (o := o); [constructor | exact Logic.I |].
    split; [apply wfb_wf; auto|].
    exists n. exists (Ok a). split; auto. discriminate.
Qed.
(** a concrete reachable state with a given (decidable) property *)
Lemma script_reach : forall n l t0 R sv kc hp y d (P : env -> bool),
  match script n l (init t0 R sv kc hp y d) with Some s => P s | None => false end = true ->
  exists s, reach s /\ P s = true.
Proof.
  intros n l t0 R sv kc hp y d P H. destruct (script n l (init t0 R sv kc hp y d)) as [s|] eqn:E; [|discriminate].
  exists s. split; auto. exists t0, R, sv, kc, hp, y, d. eapply script_runs; eauto.
Qed.

Record KI (s : env) : Prop := { ki_e : EI s; ki_l : EL s; ki_m : noreq main s }.
Lemma KI_init : forall t0 R sv kc hp y d, KI (init t0 R sv kc hp y d).
Proof. intros. constructor; [apply EI_init | apply EL_init | reflexivity]. Qed.

Lemma re_exec : forall n o s, EI s -> EL s -> wf s o -> wp (exec n o) (fun _ s' => EI s') (fun _ s' => EI s') s.
Proof.
  intros n o s H L (_ & W).
  assert (G : forall m : M unit, frames RE m -> wp m (fun _ s' => EI s') (fun _ s' => EI s') s).
  { intros m F. eapply wp_conseq; [apply (frames_wp _ RE m s F) | |]; unfold RE; auto. }
  destruct o; cbn [exec];
    try (apply G; solve [auto using re_activate, re_hold, re_passivate, re_interrupt, re_resume, re_standby,
        re_release, re_res_release, re_set_cap, re_wait, re_wait_for, re_st_set, re_st_trigger, re_from_store,
        re_to_store, re_item_enter, re_item_leave, re_st_set_cap, re_rescan, re_set_filter, re_step
       | unfold reset_now; rego]).
  - destruct W as (_ & P). apply re_create; auto. unfold pristine, pristineb in P.
    rewrite !andb_true_iff in P. unfold Off. apply negb_true_iff. tauto.
  - apply re_cancel; auto.
  - apply re_set_remaining; auto.
  - destruct W as (_ & W1 & W2). apply re_request; auto.
  - apply wp_bind, wp_get. apply re_terminate; tauto.
  - apply re_run; tauto.
Qed.
Lemma l_exec : forall n o s, EL s -> noreq main s -> wf s o ->
  wp (exec n o) (fun _ s' => EL s') (fun e s' => caught o e -> EL s') s.
Proof.
  intros n o s L N (_ & W).
  assert (G : forall m : M unit, frames RL m -> wp m (fun _ s' => EL s') (fun e s' => caught o e -> EL s') s).
  { intros m F. eapply wp_conseq; [apply (frames_wp _ RL m s F) | |]; unfold RL; auto. }
  destruct o; cbn [exec] in *;
    try (apply G; solve [auto using l_create, l_set_remaining, l_run, l_activate, l_hold, l_passivate, l_interrupt, l_resume, l_standby,
        l_release, l_res_release, l_set_cap, l_wait, l_wait_for, l_st_set, l_st_trigger, l_from_store,
        l_to_store, l_item_enter, l_item_leave, l_st_set_cap, l_rescan, l_set_filter, l_cancel
       | unfold reset_now; fl]).
  - eapply wp_conseq; [apply l_request; auto | |]; cbv beta; auto. unfold caught. tauto.
  - eapply wp_conseq; [apply l_step; auto | |]; cbv beta; auto. unfold caught. tauto.
  - apply wp_bind, wp_get. eapply wp_conseq; [apply l_terminate; tauto | |]; cbv beta; auto.
Qed.
Lemma KI_exec : forall n o s, KI s -> wf s o -> wp (exec n o) (fun _ s' => KI s') (fun e s' => caught o e -> KI s') s.
Proof.
  intros n o s [E L N] W.
  assert (F : frames (Rnoreq main) (exec n o)).
  { apply n_exec. intros. subst. destruct W as (_ & W & _). auto. }
  eapply wp_conseq; [apply wp_and; [apply (re_exec n o s E L W) | apply wp_and; [apply (l_exec n o s L N W) | apply (frames_wp _ _ _ s F)]] | |];
    cbv beta; unfold Rnoreq; intros; constructor; tauto.
Qed.
Lemma KI_does : forall s o s', KI s -> does s o s' -> KI s'.
Proof.
  intros s o s' H D. destruct (does_wp _ _ _ _ _ D (fun n => KI_exec n o s H (proj1 D))) as [(a & K)|(e & C & K)]; auto.
Qed.
Lemma reach_KI : forall s, reach s -> KI s.
Proof.
  apply reach_ind'. { intros. apply KI_init. } intros. eapply KI_does; eauto.
Qed.
Lemma runs_KI : forall P s s', runs P s s' -> KI s -> KI s'.
Proof. intros P. apply runs_inv. intros. eapply KI_does; eauto. Qed.

(** ** What a scheduler step does *)
(** the standby components collected since the last event become pending *)
Definition shuffle (s : env) : env := if nonnil (stby s) then s_stby [] (s_pend (stby s) s) else s.
(** c becomes current *)
Definition disp (c : nat) (s : env) : env := m_comp c (w_sched PInf) (m_comp c (w_status Current) (s_cur c s)).
(** the event e is taken *)
Definition taken (e : ev) (l' : list ev) (s : env) : env :=
  s_now (e_t e) (m_comp (e_c e) (w_onev false) (s_evl l' s)).
Definition emptied (s : env) : env :=
  (if eoe s then fun s => s else s_ended true) (m_comp main (w_onev false) s).
(** the state after a pending standby member that is no longer on standby has been dropped *)
Definition dropped (s : env) : env :=
  if c_skip (comps s (cur s)) then s
  else match pend s with [] => s | _ :: t => s_pend t s end.

Lemma w_step : forall n s (Q : unit -> env -> Prop) (X : exn -> env -> Prop),
  (forall c t, c_skip (comps s (cur s)) = false -> pend s = c :: t -> c_status (comps s c) = Standby ->
     (c = main -> X TypeErr (s_cur c (m_comp c (w_sched PInf) (m_comp c (w_status Current) (s_pend t s))))) /\
     (c <> main -> wp (continue n c) Q X (s_cur c (m_comp c (w_sched PInf) (m_comp c (w_status Current) (s_pend t s)))))) ->
  ((c_skip (comps s (cur s)) = true \/ pend s = [] \/ exists c t, pend s = c :: t /\ c_status (comps s c) <> Standby) ->
     (forall e l', ev_pop (evl s) = Some (e, l') -> let s1 := disp (e_c e) (taken e l' (shuffle (dropped s))) in
        (e_c e = main -> Q tt (s_running false s1)) /\
        (e_c e <> main -> wp (check_fail (e_c e) ;;; continue n (e_c e)) Q X s1)) /\
     (evl s = [] -> Q tt (s_running false (disp main (emptied (shuffle (dropped s))))))) ->
  wp (step n) Q X s.
Proof.
  intros n s Q X H1 H2.
  assert (EV : forall s1, evl s1 = evl s ->
    (forall e l', ev_pop (evl s) = Some (e, l') -> let s1 := disp (e_c e) (taken e l' (shuffle s1)) in
        (e_c e = main -> Q tt (s_running false s1)) /\
        (e_c e <> main -> wp (check_fail (e_c e) ;;; continue n (e_c e)) Q X s1)) ->
    (evl s = [] -> Q tt (s_running false (disp main (emptied (shuffle s1))))) ->
    wp (step_event n) Q X s1).
  { clear H1 H2. intros s1 E H1 H2. unfold step_event. apply wp_bind, wp_get, wp_bind.
    assert (W : wp (when (nonnil (stby s1)) (put (s_pend (stby s1)) ;;; put (s_stby [])))
      (fun _ s' => s' = shuffle s1) X s1).
    { unfold shuffle. apply wp_when; intros ->; wgo; auto. }
    eapply wp_conseq; [exact W | cbv beta | auto]. intros _ s2 ->. apply wp_bind, wp_get.
    assert (E2 : evl (shuffle s1) = evl s) by (rewrite <- E; unfold shuffle; destruct (nonnil (stby s1)); reflexivity).
    rewrite E2. destruct (ev_pop (evl s)) as [[e l']|] eqn:EP.
    - specialize (H1 e l' eq_refl). cbv zeta in H1. destruct H1 as (A & B).
      apply wp_bind, wp_bind, wp_put, wp_ret. cbv zeta. apply wp_bind, wp_bind, wp_setc, wp_put.
      apply wp_bind, wp_put, wp_bind, wp_setc, wp_bind, wp_setc.
      apply wp_if; intros C; [apply wp_put; apply A; apply Nat.eqb_eq; auto | apply B; apply Nat.eqb_neq; auto].
    - apply ev_pop_none in EP. specialize (H2 EP). unfold emptied in H2.
      apply wp_bind, wp_ret. cbv zeta. apply wp_bind, wp_bind, wp_setc, wp_bind, wp_get.
      change (eoe (m_comp main (w_onev false) (shuffle s1))) with (eoe (shuffle s1)).
      apply wp_when; intros C; [apply wp_put; apply negb_true_iff in C | apply negb_false_iff in C]; rewrite C in H2; 
        apply wp_bind, wp_put, wp_bind, wp_setc, wp_bind, wp_setc;
        apply wp_if; intros D; try discriminate; apply wp_put; exact H2. }
  unfold step. apply wp_bind, wp_get, wp_bind, wp_get, wp_bind, wp_get. unfold dropped in H2.
  destruct (c_skip (comps s (cur s))) eqn:SK.
  - destruct H2 as (A & B); auto.
  - destruct (pend s) as [|c t] eqn:PD.
    + destruct H2 as (A & B); auto.
    + apply wp_bind, wp_put, wp_bind, wp_stat. cbn [comps s_pend].
      apply wp_if; intros C.
      * apply steqb_iff in C. destruct (H1 c t) as (A & B); auto.
        apply wp_bind, wp_setc, wp_bind, wp_setc, wp_bind, wp_put.
        apply wp_if; intros D; [apply wp_raise; apply A; apply Nat.eqb_eq; auto | apply B; apply Nat.eqb_neq; auto].
      * apply steqb_false_iff in C. destruct H2 as (A & B); [right; right; eauto|]. apply EV; auto.
Qed.
