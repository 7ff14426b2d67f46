(** Stores: what the calls from_store and to_store do; the account of all items. *)
From Coq Require Import QArith Lqa List Bool Arith ZArith Lia Permutation.
From Verif Require Import Base Kernel Wp KernelE KernelL KernelX KernelT KernelU KernelR KernelQ KernelP KernelA KernelC KernelG KernelV KernelW KernelY KernelZ.
Import ListNotations.
Open Scope Q_scope.

(** * The calls that are not about stores *)
(** d: the component (if any) whose item may be forgotten *)
Definition NS (d : option nat) (s s' : env) : Prop := (forall k, qs s' (QStore k) = qs s (QStore k)) /\ forall x, Some x <> d -> c_fitem (comps s' x) = c_fitem (comps s x).
Lemma NS_po : forall d, preorder (NS d).
Proof. constructor; unfold NS; [auto|]. intros a b c (A & B) (C & D). split; intros; [rewrite C; apply A | rewrite D by auto; apply B; auto]. Qed.
Lemma NS_same : forall d s s', comps s' = comps s -> qs s' = qs s -> NS d s s'. Proof. intros d s s' E F. split; intros; rewrite ?E, ?F; auto. Qed.
Lemma NS_comp : forall d c f s, (forall y, c_fitem (f y) = c_fitem y) -> NS d s (m_comp c f s).
Proof. intros d c f s H. split; [auto|]. intros x _. rewrite comps_m_comp. destruct (Nat.eqb_spec x c) as [->|]; auto. Qed.
Lemma NS_q : forall d q f s, reg q = true -> NS d s (m_q q f s).
Proof. intros d q f s H. split; auto. intros k. rewrite qs_m_q. destruct q; try discriminate; reflexivity. Qed.
Lemma NS_own : forall c f s, NS (Some c) s (m_comp c f s).
Proof. intros c f s. split; [auto|]. intros x N. apply f_equal. apply comps_diff. congruence. Qed.
Section N.
  Variable d : option nat.
  Ltac fn := fgo (NS_po d); try (apply NS_comp; intros []; cbn; auto; fail); try (apply NS_same; reflexivity).
  Local Notation R := (NS d).
  Lemma n_q_leave : forall q c, reg q = true -> frames R (q_leave q c). Proof. intros. unfold q_leave. fn; apply NS_q; auto. Qed.
  Lemma n_q_enter : forall q c p, reg q = true -> frames R (q_enter q c p). Proof. intros. unfold q_enter. fn; apply NS_q; auto. Qed.
  Lemma n_remove : forall c, frames R (remove c). Proof. intros. unfold remove. fn. Qed.
  Lemma n_resched : forall c t p u cap, frames R (reschedule c t p u cap). Proof. intros. unfold reschedule, push. fn. Qed.
  Lemma n_leave_req : forall c r, frames R (leave_req c r). Proof. intros. unfold leave_req. fn; auto using n_q_leave. Qed.
  Lemma n_check_fail : forall c, frames R (check_fail c). Proof. intros. unfold check_fail. fn; auto using n_q_leave, n_leave_req. Qed.
  Ltac f := fn; auto using n_q_leave, n_q_enter, n_remove, n_check_fail, n_resched, n_leave_req.
  Lemma n_activate : forall c a d p u pr kr kw cap, frames R (activate c a d p u pr kr kw cap). Proof. intros. unfold activate. f. Qed.
  Lemma n_create : forall c a d p u sk cap, frames R (create c a d p u sk cap). Proof. intros. unfold create. f. Qed.
  Lemma n_hold : forall c sp p u i cap, frames R (hold c sp p u i cap). Proof. intros. unfold hold, check_notdata. f. Qed.
  Lemma n_passivate : forall c, frames R (passivate c). Proof. intros. unfold passivate, check_notdata. f. Qed.
  Lemma n_interrupt : forall c, frames R (interrupt c). Proof. intros. unfold interrupt, check_notdata. f. Qed.
  Lemma n_resume : forall c a p u, frames R (resume c a p u). Proof. intros. unfold resume. f. Qed.
  Lemma n_standby : forall c, frames R (standby c). Proof. intros. unfold standby, check_notdata, check_notmain. f. Qed.
  Lemma n_set_remaining : forall c v p u, frames R (set_remaining c v p u). Proof. intros. unfold set_remaining. f. Qed.
  Lemma n_claim : forall c r q, frames R (claim c r q). Proof. intros. unfold claim, q_prio. f. Qed.
  Lemma n_honor_one : forall c r q, frames R (honor_one c r q). Proof. intros. unfold honor_one, q_prio. f. Qed.
  Lemma n_honor_all_from : forall c rq, frames R (honor_all_from c rq). Proof. induction rq as [|[r q] t IH]; cbn; f; auto using n_honor_one. Qed.
  Lemma n_honor_any_from : forall c rq, frames R (honor_any_from c rq). Proof. induction rq as [|[r q] t IH]; cbn; f; auto using n_honor_one. Qed.
  Lemma n_c_try : forall rt c, (forall r, frames R (rt r)) -> frames R (c_try rt c).
  Proof. intros rt c Hrt. unfold c_try, honor_all, honor_any. f; auto using n_honor_all_from, n_honor_any_from, n_claim. Qed.
  Lemma n_rloop : forall rt r an first p1, (forall r, frames R (rt r)) -> forall n mx, frames R (rloop (c_try rt) n r an first p1 mx).
  Proof. intros rt r an first p1 Hrt. induction n as [|n IH]; intros mx; cbn [rloop]; destruct mx as [[c p]|]; f; auto using n_c_try. Qed.
  Lemma n_r_try : forall n r, frames R (r_try n r).
  Proof. induction n as [|n IH]; intros r; cbn [r_try]; f; auto using n_rloop. Qed.
  Lemma n_release1 : forall n c r q b, frames R (release1 n c r q b). Proof. intros. unfold release1. f; auto using n_r_try. Qed.
  Lemma n_release : forall n c a, frames R (release n c a). Proof. intros. unfold release. f; auto using n_release1. Qed.
  Lemma n_release_claimers : forall z n r mx, frames R (release_claimers z n r mx).
  Proof. induction n; intros r mx; cbn [release_claimers]; destruct mx as [[c p]|]; f; apply n_release. Qed.
  Lemma n_res_release : forall n r q, frames R (res_release n r q). Proof. intros. unfold res_release. f; auto using n_r_try, n_release_claimers. Qed.
  Lemma n_set_cap : forall n r q, frames R (set_cap n r q). Proof. intros. unfold set_cap. f; auto using n_r_try. Qed.
  Lemma n_cancel : forall n c, frames R (cancel n c). Proof. intros. unfold cancel. f; auto using n_release1. Qed.
  Lemma n_continue : forall n c, frames R (continue n c). Proof. intros. unfold continue. f; auto using n_r_try. Qed.
  Lemma n_step : forall n, frames R (step n). Proof. intros. unfold step, step_event. f; auto using n_continue. Qed.
  Lemma n_c_trywait : forall c, frames R (c_trywait c). Proof. intros. unfold c_trywait, leave_wait. f. Qed.
  Lemma n_s_trywait : forall l m, frames R (s_trywait l m). Proof. induction l as [|c t IH]; intros m; cbn [s_trywait]; f; auto using n_c_trywait. Qed.
  Lemma n_st_trywait : forall st m, frames R (st_trywait st m). Proof. intros. unfold st_trywait. f; auto using n_s_trywait. Qed.
  Lemma n_st_set : forall st v, frames R (st_set st v). Proof. intros. unfold st_set, set_sval. f; auto using n_st_trywait. Qed.
  Lemma n_st_trigger : forall st v a m, frames R (st_trigger st v a m). Proof. intros. unfold st_trigger, set_sval. f; auto using n_st_trywait. Qed.
  Lemma n_run : forall sp p u cap, frames R (run sp p u cap). Proof. intros. unfold run. f. Qed.

  Definition storeless (o : op) : bool :=
    match o with OFromStore _ _ _ _ _ _ _ _ _ | OToStore _ _ _ _ _ _ _ _ _ | OEnterStore _ _ _ | OLeaveStore _ _ | OStoreCap _ _ | ORescan _ | OFilter _ _ | OEnd => false | _ => true end.
  Lemma n_exec : forall n o, storeless o = true -> frames R (exec n o).
  Proof.
    intros n o H. destruct o; try discriminate; cbn [exec]; auto using n_create, n_activate, n_hold, n_passivate, n_interrupt, n_resume, n_cancel, n_standby,
        n_set_remaining, n_release, n_res_release, n_set_cap, n_st_set, n_st_trigger, n_run, n_step; try (unfold reset_now; f; fail).
    - unfold request, request1, fail_time, check_notdata, check_notmain. f; auto using n_release1, n_activate, n_c_try, n_r_try.
    - unfold wait, wait1, fail_time, check_notdata, check_notmain. f; auto using n_c_trywait.
    - unfold wait_for, fail_time, check_notdata, check_notmain. f; auto using n_c_trywait.
  Qed.
End N.
(** the end of a process: the component forgets the item it got *)
Lemma n_terminate : forall n c, frames (NS (Some c)) (terminate n c).
Proof. intros. unfold terminate. fgo (NS_po (Some c)); auto using n_release1, NS_own. Qed.
Lemma n_end : forall n s, NS (Some (cur s)) s (fst (exec n OEnd s)).
Proof. intros n s. cbn [exec]. unfold bind, get. apply n_terminate. Qed.

(** * The beginning and the end of from_store and to_store concern the caller only *)
Lemma but_po : forall d, preorder (but d).
Proof.
  constructor.
  - intros s. constructor; intros; tauto.
  - intros a b c [A1 A2 A3 A4 A5] [B1 B2 B3 B4 B5]. constructor; intros; rewrite ?B1, ?B2, ?B3, ?B4, ?B5 by auto; auto.
Qed.
Lemma but_comp : forall d f s, (forall y, c_filter (f y) = c_filter y) -> but d s (m_comp d f s).
Proof. intros d f s H. constructor; try (intros; reflexivity); [intros x N; apply comps_diff; auto | rewrite comps_same; apply H]. Qed.
Lemma but_same : forall d s s', comps s' = comps s -> qs s' = qs s -> but d s s'.
Proof. intros d s s' E F. constructor; intros; unfold items, takers, putters; rewrite ?E, ?F; tauto. Qed.
Lemma but_q : forall d q f s, reg q = true -> (forall l x, x <> d -> In x (map fst (f l)) <-> In x (map fst l)) -> but d s (m_q q f s).
Proof.
  intros d q f s H K. constructor; auto; intros; unfold items, takers, putters; rewrite qs_m_q.
  - destruct q; try discriminate; reflexivity.
  - destruct (qeqb (QFrom k) q) eqn:E; [|tauto]. apply qeqb_iff in E. subst q. apply K; auto.
  - destruct (qeqb (QTo k) q) eqn:E; [|tauto]. apply qeqb_iff in E. subst q. apply K; auto.
Qed.
Lemma adel_mem : forall d l x, x <> d -> In x (map fst (adel d l : list (nat * xq))) <-> In x (map fst l).
Proof. intros d l x N. rewrite <- !inq_iff. rewrite inq_adel_other by auto. tauto. Qed.
Lemma b_q_leave : forall d q, reg q = true -> frames (but d) (q_leave q d).
Proof. intros d q H. unfold q_leave. fgo (but_po d). apply but_q; auto. apply adel_mem. Qed.
Ltac fb d := fgo (but_po d); try (apply but_comp; reflexivity); try (apply but_same; reflexivity); auto using b_q_leave.
Lemma b_remove : forall d, frames (but d) (remove d). Proof. intros d. unfold remove. fb d. Qed.
Lemma b_check_fail : forall d, frames (but d) (check_fail d). Proof. intros d. unfold check_fail, leave_req. fb d. Qed.
Lemma b_resched : forall d t p u cap, frames (but d) (reschedule d t p u cap). Proof. intros. unfold reschedule, push. fb d. Qed.
Lemma b_fail_time : forall d f, frames (but d) (fail_time f). Proof. intros. unfold fail_time. fb d. Qed.
Lemma b_pre : forall d b, frames (but d) (when b (check_notdata d ;;; check_notmain d ;;; remove d ;;; check_fail d)).
Proof. intros. unfold check_notdata, check_notmain. fb d; auto using b_remove, b_check_fail. Qed.

Lemma rdy_of : forall s, QI s -> OneK s -> rdy s.
Proof.
  intros s Q O. pose proof (qi_g _ Q) as [G1 G2 G3].
  assert (TF : forall d k, In d (takers s k) <-> In k (c_from (comps s d))). { intros d k. rewrite (G1 (QFrom k) d eq_refl). cbn. unfold none. tauto. }
  assert (TT : forall d k, In d (putters s k) <-> In k (c_to (comps s d))). { intros d k. rewrite (G1 (QTo k) d eq_refl). cbn. unfold none. tauto. }
  constructor; auto.
  - apply (ki_e _ (qi_k _ Q)).
  - intros d k k' _. rewrite TF. tauto.
  - intros d k k' _. rewrite TT. tauto.
  - intros d. apply (G3 d).
  - intros d. apply (G3 d).
  - intros d k k' A B. apply TF in A. apply TT in B. assert (X : FF = FT); [|discriminate]. apply (O d); cbn; intros Z; [rewrite Z in A | rewrite Z in B]; contradiction.
Qed.
(** after the beginning of the call the caller is in no queue of a store *)
Definition out_of (s : env) (c : nat) : Prop := (forall k, ~ In c (takers s k)) /\ (forall k, ~ In c (putters s k)).
Lemma pre_ok : forall s c s1 u, QI s -> OneK s -> when (negb (steqb (c_status (comps s c)) Current)) (check_notdata c ;;; check_notmain c ;;; remove c ;;; check_fail c) s = (s1, Ok u) ->
  but c s s1 /\ rdy s1 /\ out_of s1 c.
Proof.
  intros s c s1 u Q O E. pose proof (b_pre c (negb (steqb (c_status (comps s c)) Current)) s) as B. rewrite E in B. cbn [fst] in B. split; auto.
  assert (G : GI none s1). { assert (F : frames (RG none) (when (negb (steqb (c_status (comps s c)) Current)) (check_notdata c ;;; check_notmain c ;;; remove c ;;; check_fail c))) by (fq none; auto with gq).
    specialize (F s (qi_g _ Q)). rewrite E in F. exact F. }
  assert (EE : EI s1). { pose proof (w_enter_call c (c_status (comps s c)) s (fun _ s' => EI s') (ki_e _ (qi_k _ Q)) eq_refl (fun s' A _ => A)) as W. unfold wp in W. rewrite E in W. exact W. }
  assert (FR : free c s1).
  { destruct (negb (steqb (c_status (comps s c)) Current)) eqn:ST; cbn [when] in E.
    - assert (W : wp (check_notdata c ;;; check_notmain c ;;; remove c ;;; check_fail c) (fun _ s' => free c s') (fun _ _ => True) s).
      { apply wp_bind. eapply wp_conseq; [apply wp_of_fst with (I := fun _ => True); auto | cbv beta | auto]. intros _ z1 _.
        apply wp_bind. eapply wp_conseq; [apply wp_of_fst with (I := fun _ => True); auto | cbv beta | auto]. intros _ z2 _.
        apply wp_bind. eapply wp_conseq; [apply wp_of_fst with (I := fun _ => True); auto | cbv beta | auto]. intros _ z3 _. apply w_check_fail_free. }
      unfold wp in W. rewrite E in W. exact W.
    - injection E as <- _. apply negb_false_iff, steqb_iff in ST. apply free_idle; [apply (qi_k _ Q) | apply Q | rewrite ST; auto with idle]. }
  destruct FR as (_ & _ & F2 & F3).
  assert (OO : out_of s1 c).
  { split; intros k I.
    - apply (gi_mem _ _ G (QFrom k) c eq_refl) in I. destruct I as (I & _). cbn in I. rewrite F2 in I. exact I.
    - apply (gi_mem _ _ G (QTo k) c eq_refl) in I. destruct I as (I & _). cbn in I. rewrite F3 in I. exact I. }
  split; auto. apply rdy_but with (d := c) (s := s); auto using rdy_of; try apply OO; [apply G | rewrite F2; constructor | rewrite F3; constructor].
Qed.

(** * from_store *)
Lemma bind_inv : forall A B (m : M A) (h : A -> M B) s s' b, bind m h s = (s', Ok b) -> exists s1 a, m s = (s1, Ok a) /\ h a s1 = (s', Ok b).
Proof. intros A B m h s s' b E. unfold bind in E. destruct (m s) as [s1 [a|e]]; [eauto | discriminate]. Qed.
Lemma unit_inv : forall B (m : M unit) (h : M B) s s' b, (m ;;; h) s = (s', Ok b) -> exists s1, m s = (s1, Ok tt) /\ h s1 = (s', Ok b).
Proof. intros B m h s s' b E. apply bind_inv in E. destruct E as (s1 & [] & E & F). eauto. Qed.
Lemma get_inv : forall A B (g : env -> A) (h : A -> M B) s s' b, bind (get g) h s = (s', Ok b) -> h (g s) s = (s', Ok b).
Proof. intros. exact H. Qed.

Lemma best_key_some : forall f kf l b i, best_key f kf b l = Some i -> b = Some i \/ In i l /\ f i = true.
Proof.
  induction l as [|c t IH]; intros b i E; cbn [best_key] in E; auto. destruct (f c) eqn:F.
  - apply IH in E. destruct E as [E|(I & K)]; [|right; cbn; auto]. destruct b as [b|].
    + destruct (Qltb (kf c) (kf b)); injection E as <-; [right; cbn; auto | left; auto].
    + injection E as <-. right. cbn. auto.
  - apply IH in E. destruct E as [E|(I & K)]; [auto | right; cbn; auto].
Qed.
Lemma best_key_none : forall f kf l b, best_key f kf b l = None <-> b = None /\ forall i, In i l -> f i = false.
Proof.
  induction l as [|c t IH]; intros b; cbn [best_key]; [cbn; tauto|]. destruct (f c) eqn:F; rewrite IH.
  - split; [intros (A & _); destruct b as [b|]; [destruct (Qltb (kf c) (kf b)) |]; discriminate | intros (A & B); rewrite (B c) in F by (cbn; auto); discriminate].
  - split; intros (A & B); split; auto; [intros i [<-|I]; auto | intros i I; apply B; cbn; auto].
Qed.
Lemma find_item_some : forall s f key ks b k0 i k, find_item s f key b ks k0 = (Some i, k) ->
  b = Some i \/ f i = true /\ exists k', In k' ks /\ In i (items s k').
Proof.
  induction ks as [|k1 t IH]; intros b k0 i k E; cbn [find_item] in E; [injection E as -> _; auto|]. destruct key as [kf|].
  - apply IH in E. destruct E as [E|(F & k' & K & I)]; [|right; split; auto; exists k'; cbn; auto].
    apply best_key_some in E. destruct E as [E|(I & F)]; auto. right. split; auto. exists k1. cbn. auto.
  - destruct (find f (map fst (qs s (QStore k1)))) as [c|] eqn:X.
    + injection E as <- <-. apply find_some in X. right. split; [apply X|]. exists k1. split; [cbn; auto | apply X].
    + apply IH in E. destruct E as [E|(F & k' & K & I)]; auto. right. split; auto. exists k'. cbn. auto.
Qed.
Lemma find_item_store : forall s f key ks b k0 i k, find_item s f key b ks k0 = (i, k) -> In k ks \/ k = k0.
Proof.
  induction ks as [|k1 t IH]; intros b k0 i k E; cbn [find_item] in E; [injection E as _ ->; auto|]. destruct key as [kf|].
  - apply IH in E. destruct E as [E | ->]; cbn; auto.
  - destruct (find f (map fst (qs s (QStore k1)))) as [c|] eqn:X; [injection E as <- <-; cbn; auto|]. apply IH in E. destruct E as [E | ->]; cbn; auto.
Qed.
Lemma find_item_in : forall s f key ks k0 i k, find_item s f key None ks k0 = (Some i, k) -> In k ks.
Proof.
  intros s f key [|k1 t] k0 i k E; cbn [find_item] in E; [discriminate|]. destruct key as [kf|].
  - apply find_item_store in E. destruct E as [E | ->]; cbn; auto.
  - destruct (find f (map fst (qs s (QStore k1)))) as [c|]; [injection E as _ <-; cbn; auto|]. apply find_item_store in E. destruct E as [E | ->]; cbn; auto.
Qed.
Lemma find_item_none : forall s f key ks b k0, fst (find_item s f key b ks k0) = None <-> b = None /\ forall k i, In k ks -> In i (items s k) -> f i = false.
Proof.
  induction ks as [|k1 t IH]; intros b k0; cbn [find_item]; [cbn; intuition|]. destruct key as [kf|].
  - rewrite IH, best_key_none. split.
    + intros ((A & B) & C). split; auto. intros k i [<-|K] I; [apply B; auto | eapply C; eauto].
    + intros (A & B). split; [split; auto; intros i I; apply (B k1); cbn; auto | intros k i K I; apply (B k); cbn; auto].
  - destruct (find f (map fst (qs s (QStore k1)))) as [c|] eqn:X.
    + cbn. split; [discriminate|]. intros (_ & B). apply find_some in X. rewrite (B k1 c) in X; cbn; auto; [destruct X; discriminate | apply X].
    + rewrite IH. split; intros (A & B); split; auto.
      * intros k i [<-|K] I; [apply (find_none _ _ X); auto | eapply B; eauto].
      * intros k i K I; apply (B k); cbn; auto.
Qed.
Lemma find_item_ext : forall s s' f key ks b k0, (forall k, items s' k = items s k) -> find_item s' f key b ks k0 = find_item s f key b ks k0.
Proof.
  intros s s' f key. induction ks as [|k1 t IH]; intros b k0 H; cbn [find_item]; auto. change (map fst (qs s' (QStore k1))) with (items s' k1). rewrite H.
  change (map fst (qs s (QStore k1))) with (items s k1). destruct key; [apply IH; auto|]. destruct (find f (items s k1)); auto.
Qed.

(** only [d] itself changes, and the items are the same *)
Definition bare (d : nat) (s s' : env) : Prop := (forall k, items s' k = items s k) /\ forall x, x <> d -> comps s' x = comps s x.
Lemma bare_po : forall d, preorder (bare d).
Proof. intros d. constructor; unfold bare; [auto|]. intros a b c (A & B) (C & D). split; intros; [rewrite C; auto | rewrite D by auto; auto]. Qed.
Lemma bare_comp : forall d f s, bare d s (m_comp d f s). Proof. intros. split; [auto|]. intros. apply comps_diff; auto. Qed.
Lemma bare_same : forall d s s', comps s' = comps s -> qs s' = qs s -> bare d s s'.
Proof. intros d s s' E F. split; intros; unfold items; rewrite ?E, ?F; auto. Qed.
Lemma bare_q : forall d q f s, reg q = true -> bare d s (m_q q f s).
Proof. intros d q f s H. split; [|auto]. intros k. unfold items. rewrite qs_m_q. destruct q; try discriminate; reflexivity. Qed.
Lemma bare_but : forall d s s', but d s s' -> bare d s s'. Proof. intros d s s' []. split; auto. Qed.
Ltac fba d := fgo (bare_po d); try (apply bare_comp); try (apply bare_same; reflexivity).
Lemma a_remove : forall d, frames (bare d) (remove d). Proof. intros. unfold remove. fba d. Qed.
Lemma a_resched : forall d t p u cap, frames (bare d) (reschedule d t p u cap). Proof. intros. unfold reschedule, push. fba d. Qed.
Lemma a_q_enter : forall d q c p, reg q = true -> frames (bare d) (q_enter q c p). Proof. intros. unfold q_enter. fba d. apply bare_q; auto. Qed.

Lemma out_of_tr : forall s p o g s' c, out_of s c -> tr s p o g s' -> out_of s' c /\ ~ In c (map who g) /\ ~ In c (whos p).
Proof.
  intros s p o g s' c (A & B) T.
  assert (G : ~ In c (map who g)). { intros I. apply in_who in I. destruct I as (i & k & I). apply (A k). eapply t_give; eauto. }
  assert (P : ~ In c (whos p)). { intros I. apply in_whos in I. destruct I as (i & k & I). apply (B k). eapply t_put; eauto. }
  split; auto. split; intros k I; [apply (A k); apply (t_goth _ _ _ _ _ T c G) in I; auto | apply (B k); apply (t_poth _ _ _ _ _ T c P) in I; auto].
Qed.
Lemma rdy_same : forall c f s, (forall y, c_from (f y) = c_from y /\ c_to (f y) = c_to y) -> rdy s -> EI (m_comp c f s) -> rdy (m_comp c f s).
Proof.
  intros c f s H [A B C D E F G] EE.
  assert (X : forall d, c_from (comps (m_comp c f s) d) = c_from (comps s d) /\ c_to (comps (m_comp c f s) d) = c_to (comps s d)).
  { intros d. rewrite comps_m_comp. destruct (Nat.eqb_spec d c) as [->|]; auto. }
  constructor; auto; intros d; destruct (X d) as (X1 & X2); rewrite ?X1, ?X2; try apply C; try apply D; auto.
Qed.
Lemma from_ok : forall n s c ks f key rp fl fp u cap s', QI s -> OneK s -> from_store n c ks f key rp fl fp u cap s = (s', Ok tt) ->
  (exists i k p s1 s2, find_item s f key None ks 0%nat = (Some i, k) /\ In i (items s k) /\ but c s s1 /\ rdy s1 /\ out_of s1 c /\ tr s1 p [(i, k)] [] s2 /\ own p /\ but c s2 s' /\
     c_fitem (comps s' c) = Some i /\ out_of s' c) \/
  (fst (find_item s f key None ks 0%nat) = None /\ bare c s s' /\ c_fitem (comps s' c) = None).
Proof.
  intros n s c ks f key rp fl fp u cap s' Q O E. unfold from_store in E.
  apply unit_inv in E. destruct E as (s0 & E0 & E). assert (s0 = s). { destruct (_ || _); [discriminate | injection E0 as <-; auto]. } subst s0. clear E0.
  change (bind (stat c) ?h s) with (h (c_status (comps s c)) s) in E. cbv beta in E.
  apply unit_inv in E. destruct E as (s1 & E1 & E). destruct (pre_ok s c s1 tt Q O E1) as (B1 & R1 & U1). clear E1.
  apply bind_inv in E. destruct E as (s1' & t & E2 & E). assert (s1' = s1). { unfold fail_time in E2. destruct fl; cbn in E2; inversion E2; auto. } subst s1'. clear E2.
  apply unit_inv in E. destruct E as (s2 & E2 & E). injection E2 as <-. set (s2 := m_comp c (w_failed false) s1) in *. apply get_inv in E.
  assert (B2 : but c s1 s2) by (apply but_comp; reflexivity).
  assert (R2 : rdy s2). { apply rdy_same; auto. apply EI_comp; [intros; repeat split; reflexivity | apply R1]. }
  assert (U2 : out_of s2 c) by exact U1.
  assert (FI : find_item s2 f key None ks 0%nat = find_item s f key None ks 0%nat).
  { apply find_item_ext. intros k. rewrite (bu_i _ _ _ B2), (bu_i _ _ _ B1). auto. }
  rewrite FI in E. destruct (find_item s f key None ks 0%nat) as ([i|] & k) eqn:FK.
  - left. apply unit_inv in E. destruct E as (s3 & E3 & E). destruct (leave_ok _ _ _ _ _ R2 E3) as (I3 & L3 & R3 & _).
    destruct (tr_leaves _ _ _ _ R2 I3 L3) as (p & T & W). destruct (out_of_tr _ _ _ _ _ _ U2 T) as (U3 & _ & _).
    apply unit_inv in E. destruct E as (s4 & E4 & E). injection E4 as <-. set (s4 := m_comp c (w_fitem (Some i)) s3) in *.
    change (wake_up c s4 = (s', Ok tt)) in E. assert (E4 : EI s4) by (apply EI_comp; [intros; repeat split; reflexivity | apply R3]).
    destruct (wake_up_ok s4 c E4) as (s5 & E5 & UP). rewrite E5 in E. injection E as <-.
    exists i, k, p, s2, s3. split; auto. split; [rewrite <- (bu_i _ _ _ B1), <- (bu_i _ _ _ B2); auto|]. split; [apply (po_trans _ (but_po c)) with s1; auto|]. split; auto. split; auto. split; auto.
    split; [apply own_whos; auto|].
    assert (QS : forall q, qs s5 q = qs s3 q). { intros q. rewrite (up_q _ _ _ UP). reflexivity. }
    split.
    + constructor; unfold items, takers, putters; intros; rewrite ?QS; try tauto.
      * rewrite (up_oth _ _ _ UP) by auto. apply comps_diff; auto.
      * rewrite (up_self _ _ _ UP). cbn [c_filter w_onev w_sched w_status]. unfold s4. rewrite comps_same. reflexivity.
    + split; [rewrite (up_self _ _ _ UP); unfold s4; rewrite comps_same; reflexivity|]. unfold out_of, takers, putters in *. split; intros j; rewrite QS; apply U3.
  - right. split; auto.
    assert (F : frames (bare c) (setc c (w_from ks) ;;; mfor ks (fun k => q_enter (QFrom k) c rp) ;;; setc c (w_status Requesting) ;;; setc c (w_fitem None) ;;; setc c (w_filter f) ;;; reschedule c t fp u cap)).
    { fba c; auto using a_q_enter, a_resched. }
    specialize (F s2). rewrite E in F. cbn [fst] in F. split.
    + apply (po_trans _ (bare_po c)) with s2; auto. apply (po_trans _ (bare_po c)) with s1; auto using bare_but.
    + apply unit_inv in E. destruct E as (z1 & _ & E). apply unit_inv in E. destruct E as (z2 & _ & E). apply unit_inv in E. destruct E as (z3 & _ & E).
      apply unit_inv in E. destruct E as (z4 & E4 & E). injection E4 as <-. apply unit_inv in E. destruct E as (z5 & E5 & E). injection E5 as <-.
      set (z5 := m_comp c (w_filter f) (m_comp c (w_fitem None) z3)) in *.
      assert (K : c_fitem (comps z5 c) = None). { unfold z5. rewrite comps_same. change (c_fitem (comps (m_comp c (w_fitem None) z3) c) = None). rewrite comps_same. reflexivity. }
      assert (G : NS None z5 s'). { pose proof (n_resched None c t fp u cap z5) as X. rewrite E in X. exact X. }
      destruct G as (_ & G). rewrite G; auto. discriminate.
Qed.

(** * to_store *)
Lemma to_try_ok : forall n c i p ks s s' b, rdy s -> out_of s c -> to_try n c i p ks s = (s', Ok b) ->
  (b = false /\ s' = s /\ forall k, In k ks -> xltb (Fin 0) (kmav s k) = false) \/
  (b = true /\ exists l1 k l2 s1, ks = l1 ++ k :: l2 /\ (forall k', In k' l1 -> xltb (Fin 0) (kmav s k') = false) /\ xltb (Fin 0) (kmav s k) = true /\
     fits s k i (PSorted p) /\ enters k i (PSorted p) s s1 /\ rdy s1 /\ but c s1 s' /\ out_of s' c /\ c_fitem (comps s' c) = c_fitem (comps s c) /\ c_status (comps s' c) = Scheduled).
Proof.
  intros n c i p. induction ks as [|k t IH]; intros s s' b R U E; cbn [to_try] in E.
  - injection E as <- <-. left. repeat split; auto. intros k [].
  - apply get_inv in E. destruct (xltb (Fin 0) (kmav s k)) eqn:AV.
    + right. apply unit_inv in E. destruct E as (s1 & E1 & E). destruct (enter_cases _ _ _ _ _ _ _ R E1) as [(_ & F & EN & R1)|(e & X & _)]; [|discriminate].
      destruct (tr_enters _ _ _ _ _ R F EN) as (q & g & T & _). destruct (out_of_tr _ _ _ _ _ _ U T) as (U1 & G1 & _).
      apply unit_inv in E. destruct E as (s2 & E2 & E). injection E2 as <-. apply unit_inv in E. destruct E as (s3 & E3 & E). injection E3 as <-.
      set (s3 := m_comp c (w_to []) (m_comp c (w_titem None) s1)) in *.
      assert (EI3 : EI s3). { unfold s3. apply EI_comp; [intros; repeat split; reflexivity|]. apply EI_comp; [intros; repeat split; reflexivity | apply R1]. }
      destruct (wake_up_ok s3 c EI3) as (s4 & E4 & UP).
      assert (X : (wake_up c ;;; ret true) s3 = (s', Ok b)). { rewrite <- E. unfold wake_up. rewrite !bind_assoc. unfold bind. destruct (remove c s3) as [z [a|e]]; auto. }
      rewrite (bind_ok _ _ _ _ _ _ _ E4) in X. injection X as <- <-. split; auto. exists [], k, t, s1.
      assert (QS : forall q, qs s4 q = qs s1 q). { intros q'. rewrite (up_q _ _ _ UP). reflexivity. }
      assert (C3 : comps s3 c = w_to [] (w_titem None (comps s1 c))). { unfold s3. rewrite comps_same. f_equal. apply comps_same. }
      split; auto. split; [intros k' []|]. split; auto. split; auto. split; auto. split; auto.
      split. { constructor; unfold items, takers, putters; intros; rewrite ?QS; try tauto.
               - rewrite (up_oth _ _ _ UP) by auto. unfold s3. rewrite comps_diff by auto. apply comps_diff; auto.
               - rewrite (up_self _ _ _ UP), C3. reflexivity. }
      split. { unfold out_of, takers, putters in *. split; intros j; rewrite QS; apply U1. }
      split; [|rewrite (up_self _ _ _ UP); reflexivity]. rewrite (up_self _ _ _ UP), C3. cbn [c_fitem w_onev w_sched w_status w_to w_titem]. apply (t_goth _ _ _ _ _ T c G1).
    + destruct (IH _ _ _ R U E) as [(A & B & C)|(A & l1 & k1 & l2 & s1 & B & C & D)].
      * left. split; auto. split; auto. intros k' [<-|K]; auto.
      * right. split; auto. exists (k :: l1), k1, l2, s1. rewrite B. split; auto. split; auto. intros k' [<-|K]; auto.
Qed.
Lemma to_ok : forall n s c ks i rp p fl fp u cap s', QI s -> OneK s -> wf s (OToStore c ks i rp p fl fp u cap) -> to_store n c ks i rp p fl fp u cap s = (s', Ok tt) ->
  (exists l1 k l2 s1 s2, ks = l1 ++ k :: l2 /\ (forall k', In k' l1 -> xltb (Fin 0) (kmav s k') = false) /\ xltb (Fin 0) (kmav s k) = true /\
     but c s s1 /\ rdy s1 /\ out_of s1 c /\ fits s1 k i (PSorted p) /\ enters k i (PSorted p) s1 s2 /\ but c s2 s' /\ out_of s' c /\ c_fitem (comps s' c) = c_fitem (comps s c)) \/
  ((forall k, In k ks -> xltb (Fin 0) (kmav s k) = false) /\ bare c s s' /\ c_fitem (comps s' c) = c_fitem (comps s c) /\ c_titem (comps s' c) = Some i /\ c_tprio (comps s' c) = p /\
    c_to (comps s' c) = ks /\ c_status (comps s' c) = Requesting /\ forall k, In k ks -> In c (putters s' k)).
Proof.
  intros n s c ks i rp p fl fp u cap s' Q O WF E. pose proof E as E0. unfold to_store in E.
  apply unit_inv in E. destruct E as (s0 & X0 & E). assert (s0 = s). { destruct (_ || _); [discriminate | injection X0 as <-; auto]. } subst s0. clear X0.
  change (bind (stat c) ?h s) with (h (c_status (comps s c)) s) in E. cbv beta in E.
  apply unit_inv in E. destruct E as (s1 & E1 & E). destruct (pre_ok s c s1 tt Q O E1) as (B1 & R1 & U1).
  assert (KM : kmav s1 = kmav s /\ forall x, c_fitem (comps s1 x) = c_fitem (comps s x)).
  { split.
    - assert (F : frames (fun a b => kmav b = kmav a) (when (negb (steqb (c_status (comps s c)) Current)) (check_notdata c ;;; check_notmain c ;;; remove c ;;; check_fail c))).
      { unfold check_notdata, check_notmain, remove, check_fail, leave_req, q_leave. assert (PO : preorder (fun a b => kmav b = kmav a)) by (constructor; intros; congruence). fgo PO; try reflexivity. }
      specialize (F s). rewrite E1 in F. exact F.
    - assert (F : frames (NS None) (when (negb (steqb (c_status (comps s c)) Current)) (check_notdata c ;;; check_notmain c ;;; remove c ;;; check_fail c))).
      { unfold check_notdata, check_notmain. fgo (NS_po None); auto using n_remove, n_check_fail. }
      specialize (F s). rewrite E1 in F. intros x. apply F. discriminate. }
  destruct KM as (KM & FM). clear E1.
  apply bind_inv in E. destruct E as (s1' & t & E2 & E). assert (s1' = s1). { unfold fail_time in E2. destruct fl; cbn in E2; inversion E2; auto. } subst s1'. clear E2.
  apply unit_inv in E. destruct E as (s2 & E2 & E). injection E2 as <-. set (s2 := m_comp c (w_failed false) s1) in *.
  assert (B2 : but c s1 s2) by (apply but_comp; reflexivity).
  assert (R2 : rdy s2). { apply rdy_same; auto. apply EI_comp; [intros; repeat split; reflexivity | apply R1]. }
  assert (U2 : out_of s2 c) by exact U1.
  assert (F2 : c_fitem (comps s2 c) = c_fitem (comps s c)). { unfold s2. rewrite comps_same. cbn. apply FM. }
  apply bind_inv in E. destruct E as (s3 & b & E3 & E). assert (K2 : kmav s2 = kmav s) by exact KM.
  destruct (to_try_ok _ _ _ _ _ _ _ _ R2 U2 E3) as [(-> & -> & C)|(-> & l1 & k & l2 & s4 & A & B & C & D & F & G & H & I & J & _)]; rewrite K2 in *.
  - right. split; auto.
    assert (F : frames (bare c) (mfor ks (fun k => q_enter (QTo k) c rp) ;;; setc c (w_status Requesting) ;;; setc c (w_titem (Some i)) ;;; setc c (w_tprio p) ;;; setc c (w_to ks) ;;; reschedule c t fp u cap)).
    { fba c; auto using a_q_enter, a_resched. }
    assert (F' : frames (NS None) (mfor ks (fun k => q_enter (QTo k) c rp) ;;; setc c (w_status Requesting) ;;; setc c (w_titem (Some i)) ;;; setc c (w_tprio p) ;;; setc c (w_to ks) ;;; reschedule c t fp u cap)).
    { fgo (NS_po None); auto using n_q_enter, n_resched; apply NS_comp; reflexivity. }
    specialize (F s2). rewrite E in F. cbn [fst] in F. specialize (F' s2). rewrite E in F'. cbn [fst] in F'. split.
    { apply (po_trans _ (bare_po c)) with s2; auto. apply (po_trans _ (bare_po c)) with s1; auto using bare_but. }
    split. { rewrite <- F2. apply F'. discriminate. }
    apply unit_inv in E. destruct E as (z1 & _ & E). apply unit_inv in E. destruct E as (z2 & E4 & E). injection E4 as <-.
    apply unit_inv in E. destruct E as (z3 & E4 & E). injection E4 as <-. apply unit_inv in E. destruct E as (z4 & E4 & E). injection E4 as <-.
    apply unit_inv in E. destruct E as (z5 & E4 & E). injection E4 as <-.
    set (z5 := m_comp c (w_to ks) (m_comp c (w_tprio p) (m_comp c (w_titem (Some i)) (m_comp c (w_status Requesting) z1)))) in *.
    assert (K : comps z5 c = w_to ks (w_tprio p (w_titem (Some i) (w_status Requesting (comps z1 c))))). { unfold z5. rewrite !comps_same. reflexivity. }
    assert (Y : c_titem (comps s' c) = c_titem (comps z5 c) /\ c_tprio (comps s' c) = c_tprio (comps z5 c) /\ c_to (comps s' c) = c_to (comps z5 c) /\ c_status (comps s' c) = c_status (comps z5 c)).
    { set (RR := fun a b : env => c_titem (comps b c) = c_titem (comps a c) /\ c_tprio (comps b c) = c_tprio (comps a c) /\ c_to (comps b c) = c_to (comps a c) /\ c_status (comps b c) = c_status (comps a c)).
      assert (PO : preorder RR). { constructor; unfold RR; [auto|]. intros x y z (?&?&?&?) (?&?&?&?). repeat split; congruence. }
      assert (FR : frames RR (reschedule c t fp u cap)).
      { unfold reschedule, push. fgo PO; try (unfold RR; repeat split; reflexivity); unfold RR; rewrite comps_same; repeat split; reflexivity. }
      specialize (FR z5). rewrite E in FR. exact FR. }
    destruct Y as (Y1 & Y2 & Y3 & Y4). rewrite Y1, Y2, Y3, Y4, K. repeat split.
    intros k IK. assert (QQ : QI s') by (eapply (QI_exec n (OToStore c ks i rp p fl fp u cap) s); eauto; discriminate).
    apply (gi_mem _ _ (qi_g _ QQ) (QTo k) c eq_refl). split; [|unfold none; auto]. cbn. rewrite Y3, K. exact IK.
  - left. injection E as <-. exists l1, k, l2, s2, s4. split; auto. split; auto. split; auto. split; [apply (po_trans _ (but_po c)) with s1; auto|].
    split; auto. split; auto. split; auto. split; auto. split; auto. split; auto. congruence.
Qed.
