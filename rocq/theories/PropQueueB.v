(** Properties C33 – C36: queues. *)
From Coq Require Import QArith Lqa List Bool Arith ZArith Lia.
From Verif Require Import Base QHeap QSpec QHeapP QHeapR QHeapI QHeapS PropQueue.
Import ListNotations.
Open Scope Q_scope.

(** ** C33: membership is symmetric and enter and leave are checked *)
(** component.queues() 9577-9583 *)
Definition queues (c : nat) (h : heap) : list nat := keys (mb h c).
Theorem C33_membership : forall h c q, qreach h -> (In q (queues c h) <-> (q < nq h)%nat /\ In c (names (p_l (abs h) q))) /\ NoDup (queues c h).
Proof.
  intros h c q R. destruct (reach_hp h R) as [f P]. pose proof (hp_inv _ _ P) as I. split; [|apply (iv_keys _ _ I)].
  change (names (p_l (abs h) q)) with (content h q). unfold queues. split.
  - intro K. apply alookup_ex in K. destruct K as [m K]. pose proof (proj1 (iv_mb _ _ I c q m) K) as (L & A & B). split; auto. apply (content_in h f q c I L). eauto.
  - intros [L K]. apply (content_in h f q c I L) in K. destruct K as (m & A & B). assert (M : member c q h = Some m) by (apply (iv_mb _ _ I); auto). eapply alookup_Some_key; exact M.
Qed.
(** an operation on one queue that fails changes nothing at all (extend may have entered some components before) *)
Theorem C33_errors_change_nothing : forall h o q h' e, qreach h -> qwf h o -> queue_of o = Some q -> (forall l, o <> QExtend q l) -> qexec o h = (h', Rer e) -> h' = h.
Proof.
  intros h o q h' e R W Q X E. destruct (reach_hp h R) as [f P]. pose proof (hp_inv _ _ P) as I.
  assert (L : (q < nq h)%nat) by (destruct o; cbn in *; try discriminate; injection Q as <-; auto).
  destruct (exec_good o h f q I L Q) as (g & h2 & f2 & r & E2 & _ & _ & N). rewrite E in E2. injection E2 as -> <-. eapply N; eauto.
Qed.
Definition enters (o : qop) (c q : nat) : Prop := (exists po, o = QEnter c q po) \/ o = QEnterHead c q \/ (exists x, o = QEnterFront c q x) \/ (exists x, o = QEnterBehind c q x).
Lemma spec_result : forall h o q h' r, qreach h -> qwf h o -> queue_of o = Some q -> qexec o h = (h', r) -> r = snd (on_queue o (p_cap (abs h) q) (p_l (abs h) q)).
Proof.
  intros h o q h' r R W Q E. assert (A : asks o = false) by (destruct o; cbn in *; try discriminate; auto). destruct (C31_operations h o h' r R W A E) as [_ ->].
  unfold spec. rewrite Q. destruct (on_queue o (p_cap (abs h) q) (p_l (abs h) q)). reflexivity.
Qed.
Theorem C33_checked : forall h c q, qreach h -> (q < nq h)%nat -> let L := p_l (abs h) q in
  (forall o, enters o c q -> In c (names L) -> qexec o h = (h, Rer EValue)) /\
  (~ In c (names L) -> qexec (QLeave c q) h = (h, Rer EValue) /\ forall p, qexec (QPrio c q p) h = (h, Rer EValue)) /\
  (forall x, ~ In c (names L) -> ~ In x (names L) -> qexec (QEnterFront c q x) h = (h, Rer EValue) /\ qexec (QEnterBehind c q x) h = (h, Rer EValue)) /\
  (forall o, enters o c q -> ~ In c (names L) -> (forall x, o = QEnterFront c q x \/ o = QEnterBehind c q x -> In x (names L)) ->
     xlt (p_cap (abs h) q) (Fin (inject_Z (Z.of_nat (length L) + 1))) -> qexec o h = (h, Rer EFull)) /\
  (forall o, enters o c q -> ~ In c (names L) -> (forall x, o = QEnterFront c q x \/ o = QEnterBehind c q x -> In x (names L)) ->
     ~ xlt (p_cap (abs h) q) (Fin (inject_Z (Z.of_nat (length L) + 1))) -> exists h', qexec o h = (h', Rok None) /\ In c (names (p_l (abs h') q))).
Proof.
  intros h c q R L L0. 
  assert (SP : forall o e, qwf h o -> queue_of o = Some q -> (forall l, o <> QExtend q l) -> snd (on_queue o (p_cap (abs h) q) L0) = Rer e -> qexec o h = (h, Rer e)).
  { intros o e W Q X S. destruct (qexec o h) as [h' r] eqn:E. pose proof (spec_result h o q h' r R W Q E) as Y. fold L0 in Y. rewrite S in Y. subst r. f_equal. eapply C33_errors_change_nothing; eauto. }
  assert (EN : forall o, enters o c q -> qwf h o /\ queue_of o = Some q /\ forall l, o <> QExtend q l).
  { intros o [[po ->]|[->|[[x ->]|[x ->]]]]; cbn; split; auto; split; auto; intros; discriminate. }
  assert (AD : forall o, enters o c q -> (is_in c L0 = true -> snd (on_queue o (p_cap (abs h) q) L0) = Rer EValue) /\
    (is_in c L0 = false -> (forall x, o = QEnterFront c q x \/ o = QEnterBehind c q x -> In x (names L0)) -> exists k p, on_queue o (p_cap (abs h) q) L0 = add (p_cap (abs h) q) c k p L0)).
  { intros o [[po ->]|[->|[[x ->]|[x ->]]]]; cbn [on_queue]; (split; [intro IN; unfold add; rewrite IN; try destruct po; auto|intros IN X]).
    - destruct po; eauto.
    - eauto.
    - rewrite (proj2 (is_in_iff x L0) (X x (or_introl eq_refl))), andb_false_r. eauto.
    - rewrite (proj2 (is_in_iff x L0) (X x (or_intror eq_refl))), andb_false_r. eauto. }
  split; [|split; [|split; [|split]]].
  - intros o O IN. destruct (EN o O) as (W & Q & X). apply SP; auto. apply (AD o O). apply is_in_iff. auto.
  - intro N. apply is_in_false in N. split; [|intro p]; (apply SP; [exact L|reflexivity|discriminate|]); cbn [on_queue]; unfold del; rewrite N; auto.
  - intros x N NX. apply is_in_false in N. apply is_in_false in NX. split; (apply SP; [exact L|reflexivity|discriminate|]); cbn [on_queue]; rewrite N, NX; auto.
  - intros o O N X F. destruct (EN o O) as (W & Q & Y). apply SP; auto. apply is_in_false in N. destruct (proj2 (AD o O) N X) as (k & p & ->). unfold add. rewrite N.
    assert (FU : is_full (p_cap (abs h) q) L0 = true) by (unfold is_full; apply xltb_iff; auto). rewrite FU. auto.
  - intros o O N X F. destruct (EN o O) as (W & Q & Y). apply is_in_false in N. destruct (proj2 (AD o O) N X) as (k & p & OQ).
    assert (FU : is_full (p_cap (abs h) q) L0 = false) by (unfold is_full; destruct (xltb (p_cap (abs h) q) (Fin (inject_Z (Z.of_nat (length L0) + 1)))) eqn:B; auto; apply xltb_iff in B; tauto).
    destruct (qexec o h) as [h' r] eqn:E. pose proof (spec_result h o q h' r R W Q E) as Z. fold L0 in Z. unfold add in OQ. rewrite N, FU in OQ. rewrite OQ in Z. cbn in Z. subst r. exists h'. split; auto.
    assert (A : asks o = false) by (destruct o; cbn in *; try discriminate; auto).
    destruct (C31_operations h o h' _ R W A E) as [[PN S] _]. destruct (S q) as [_ ->]; [rewrite PN; unfold spec; rewrite Q; fold L0; rewrite OQ; exact L|].
    unfold spec. rewrite Q. fold L0. rewrite OQ. cbn. rewrite upd_same. unfold put, names. rewrite map_app. apply in_or_app. right. left. auto.
Qed.
Example C33_case : queues 12 h1 = [0; 1]%nat /\ queues 10 h1 = [] /\ qexec (QEnter 14 1 None) h1 = (h1, Rer EFull) /\ xlt (p_cap (abs h1) 1) (Fin (inject_Z (Z.of_nat (length (p_l (abs h1) 1%nat)) + 1))).
Proof.
  split; [vm_compute; reflexivity|]. split; [vm_compute; reflexivity|].
  assert (F : xlt (p_cap (abs h1) 1) (Fin (inject_Z (Z.of_nat (length (p_l (abs h1) 1%nat)) + 1)))) by (apply (proj1 (xltb_iff _ _)); vm_compute; reflexivity). split; [|exact F].
  destruct (C33_checked h1 14 1 h1_reach ltac:(apply Nat.ltb_lt; vm_compute; reflexivity)) as (_ & _ & _ & X & _). apply X; [left; exists None; reflexivity| | |exact F].
  - apply is_in_false. vm_compute. reflexivity.
  - intros x [Y|Y]; discriminate Y.
Qed.
Print Assumptions C33_membership.
Print Assumptions C33_errors_change_nothing.
Print Assumptions C33_checked.

(** ** C34: the length of a queue and the lengths of stay *)
(** component.enter_time(q) 9881-9893 *)
Definition enter_time (c q : nat) (h : heap) : option Q := match member c q h with Some m => Some (m_time (mm h m)) | None => None end.
(** the time c has been in q *)
Definition been_in (q : nat) (h : heap) (c : nat) : Q := match enter_time c q h with Some t => ck h - t | None => 0 end.
(** the integral over time of the tallied length = the tallied lengths of stay + the time spent by those still there *)
Theorem C34_accounting : forall h q, qreach h -> (q < nq h)%nat ->
  area (ck h) (u_llog (qq h q)) == sumQ (u_slog (qq h q)) + sumQ (map (been_in q h) (names (p_l (abs h) q))) /\
  (u_arr (qq h q) - u_dep (qq h q) = Z.of_nat (length (p_l (abs h) q)))%Z /\
  u_dep (qq h q) = Z.of_nat (length (u_slog (qq h q))) /\
  (exists t r, u_llog (qq h q) = (t, Z.of_nat (length (p_l (abs h) q))) :: r) /\
  (forall s, In s (u_slog (qq h q)) -> 0 <= s) /\
  (forall c, In c (names (p_l (abs h) q)) -> exists t, enter_time c q h = Some t /\ t <= ck h).
Proof.
  intros h q R L. destruct (reach_hp h R) as [f P]. pose proof (hp_inv _ _ P) as I. pose proof (hp_log _ _ P) as G.
  assert (MB : forall m, In m (f q) -> enter_time (comp_of h m) q h = Some (m_time (mm h m))).
  { intros m M. destruct (iv_comp _ _ I q m L M) as [c C]. unfold enter_time, comp_of. rewrite C. assert (X : member c q h = Some m) by (apply (iv_mb _ _ I); auto). rewrite X. auto. }
  assert (AG : sumQ (map (been_in q h) (names (p_l (abs h) q))) = ages h (f q)).
  { rewrite (abs_l h f q I L), names_ents, map_map. unfold ages. f_equal. apply map_ext_in. intros m M. unfold been_in. rewrite MB; auto. }
  assert (LE : Z.of_nat (length (p_l (abs h) q)) = u_len (qq h q)) by (rewrite (abs_l h f q I L), len_ents; symmetry; apply (iv_len _ _ I q L)).
  split; [rewrite AG; apply (lg_area _ _ G q L)|]. rewrite LE. split; [apply (lg_num _ _ G q L)|]. split; [apply (lg_dep _ _ G q L)|]. split; [|split].
  - destruct (lg_last _ _ G q L) as (t & r & A & _). eauto.
  - intros s S. eapply (lg_stay _ _ G q s L S).
  - intros c C. rewrite (abs_l h f q I L), names_ents, in_map_iff in C. destruct C as (m & <- & M). rewrite MB by auto. eexists. split; [reflexivity|]. apply (lg_time _ _ G q m L M).
Qed.
(** only the passing of time moves the clock *)
Definition still {A} (m : H A) : Prop := forall h, ck (fst (m h)) = ck h.
Lemma still_bind : forall A B (m : H A) (k : A -> H B), still m -> (forall a, still (k a)) -> still (hbind m k).
Proof. intros A B m k M K h. unfold hbind. pose proof (M h) as X. destruct (m h) as [h2 [a|e]]; cbn in *; auto. rewrite K. auto. Qed.
Lemma still_rd : forall A (g : heap -> res A), still (rd g).
Proof. intros A g h. reflexivity. Qed.
Lemma still_ret : forall A (a : A), still (hret a).
Proof. intros A a h. reflexivity. Qed.
Lemma still_raise : forall A e, still (hraise (A := A) e).
Proof. intros A e h. reflexivity. Qed.
Lemma still_put : forall g, (forall h, ck (g h) = ck h) -> still (hput g).
Proof. intros g G h. apply G. Qed.
Lemma still_for : forall A (l : list A) g, (forall a, still (g a)) -> still (hfor l g).
Proof. intros A l g G. induction l as [|a l IH]; cbn; [apply still_ret|]. apply still_bind; auto. Qed.
Lemma still_check : forall c q, still (check_in c q).
Proof. intros c q h. unfold check_in. destruct (member c q h); auto. Qed.
Lemma still_not : forall c q, still (check_not_in c q).
Proof. intros c q h. unfold check_not_in. destruct (member c q h); auto. Qed.
Lemma still_ins : forall m c q p, still (insert_in_front_of m c q p).
Proof. intros m c q p h. unfold insert_in_front_of. destruct (xltb _ _); auto. destruct (m_pred (mm h m)); auto. Qed.
Lemma still_new : forall c, still (new_queue c).
Proof. intros c h. reflexivity. Qed.
Lemma still_iter : forall q, still (new_iter q).
Proof. intros q h. reflexivity. Qed.
Ltac stl := repeat match goal with
  | |- still (hbind _ _) => apply still_bind; [|intro]
  | |- still (rd _) => apply still_rd
  | |- still (hret _) => apply still_ret
  | |- still (hraise _) => apply still_raise
  | |- still (hfor _ _) => apply still_for; intro
  | |- still (check_in _ _) => apply still_check
  | |- still (check_not_in _ _) => apply still_not
  | |- still (insert_in_front_of _ _ _ _) => apply still_ins
  | |- still (new_queue _) => apply still_new
  | |- still (new_iter _) => apply still_iter
  | |- still (hput _) => apply still_put; intro; reflexivity
  | |- still (match ?x with _ => _ end) => destruct x
  | |- still (let _ := _ in _) => cbv zeta
  end.
Lemma still_leave : forall c q, still (leave c q).
Proof. intros. unfold leave. stl. Qed.
Lemma still_leave_all : forall c, still (leave_all c).
Proof. intros. unfold leave_all. stl. apply still_leave. Qed.
Lemma still_enter : forall c q po, still (enter c q po).
Proof. intros. unfold enter. stl. Qed.
Lemma still_prio : forall c q p, still (set_prio c q p).
Proof. intros. unfold set_prio. stl. Qed.
Lemma still_clear : forall q, still (clear q).
Proof.
  assert (G : forall fuel q m, still (clear_from fuel q m)) by (induction fuel; intros; cbn [clear_from]; stl; auto; apply still_leave).
  intros. unfold clear. stl. apply G.
Qed.
Lemma still_pop : forall q io, still (pop q io).
Proof. intros. unfold pop. stl; apply still_leave. Qed.
Lemma still_extend : forall q l, still (extend q l).
Proof. intros. unfold extend. stl. apply still_enter. Qed.
Lemma still_copy_to : forall q k p l, still (copy_to q k p l).
Proof. intros. unfold copy_to. stl. Qed.
Lemma still_next : forall i, still (next i).
Proof.
  assert (G : forall fuel i q seq l ix, still (iter_loop fuel i q seq l ix)) by (induction fuel; intros; cbn [iter_loop]; stl; auto).
  intros. unfold next. stl; apply G.
Qed.
Lemma still_exec : forall o, (forall dt, o <> QTick dt) -> still (qexec o).
Proof.
  intros o N. destruct o; cbn [qexec]; unfold unit_, some_; stl; try apply still_leave; try apply still_leave_all; try apply still_enter; try apply still_prio; try apply still_clear; try apply still_pop; try apply still_extend; try apply still_next.
  - unfold enter_at_head. stl.
  - unfold enter_in_front_of. stl.
  - unfold enter_behind. stl.
  - unfold insert. stl.
  - unfold set_cap. stl.
  - unfold union. stl; apply still_copy_to.
  - unfold intersection. stl; apply still_copy_to.
  - unfold difference. stl; apply still_copy_to.
  - unfold symmetric_difference. stl; apply still_copy_to.
  - unfold copy. stl; apply still_copy_to.
  - unfold move, copy. stl; try apply still_copy_to; apply still_clear.
  - destruct (N dt eq_refl).
Qed.
(** enter times: of members made earlier they stay, of new ones they are the present time *)
Record timed (h h' : heap) (f' : nat -> list nat) : Prop := {
  td_ck : ck h <= ck h'; td_nm : (nm h <= nm h')%nat; td_old : forall m, (m < nm h)%nat -> m_time (mm h' m) = m_time (mm h m);
  td_new : forall q m, (nm h <= m)%nat -> In m (f' q) -> ck h <= m_time (mm h' m) }.
Lemma prims_timed : forall h f h' f', prims h f h' f' -> timed h h' f'.
Proof.
  intros h f h' f' P. induction P as [h f I|h f h1 f1 h2 f2 P IH PR].
  { constructor; auto; [apply Qle_refl|]. intros q m M IN. pose proof (iv_in_lt _ _ _ _ I (iv_q_lt _ _ _ _ I IN) IN). lia. }
  destruct IH as [CK NM OLD NEW]. destruct PR as [h1 f1 h2 q a b c p I L E MB RO IN I'|h1 f1 h2 q a m b c I L E C LF I'|h1 f1 h2 q a m b c x y p I L E C XY MV I'|h1 f1 q cap av I L|h1 f1 cap I|h1 f1 dt I D].
  - destruct IN. constructor; rewrite ?in_ck, ?in_nm; auto; try lia.
    + intros m M. destruct (in_old m ltac:(lia)) as (_ & _ & _ & ->). auto.
    + intros q' m M X. destruct (Nat.eq_dec m (nm h1)) as [->|N]; [destruct in_new as (_ & _ & _ & ->); auto|]. destruct (in_old m N) as (_ & _ & _ & ->).
      apply (NEW q'); auto. unfold upd in X. destruct (Nat.eqb_spec q' q) as [->|]; auto. rewrite E. apply in_app_or in X. apply in_or_app. destruct X as [X|[X|X]]; auto. congruence.
  - destruct LF. constructor; rewrite ?lf_ck, ?lf_nm; auto.
    + intros x M. destruct (lf_old x) as (_ & _ & ->). auto.
    + intros q' x M X. destruct (lf_old x) as (_ & _ & ->). apply (NEW q'); auto. unfold upd in X. destruct (Nat.eqb_spec q' q) as [->|]; auto. rewrite E. apply in_app_or in X. apply in_or_app. destruct X; auto. right. right. auto.
  - destruct MV. constructor; rewrite ?mv_ck, ?mv_nm; auto.
    + intros z M. destruct (mv_old z) as (_ & _ & ->). auto.
    + intros q' z M X. destruct (mv_old z) as (_ & _ & ->). apply (NEW q'); auto. unfold upd in X. destruct (Nat.eqb_spec q' q) as [->|]; auto. rewrite E.
      assert (X' : In z (a ++ b) \/ z = m) by (rewrite XY; apply in_app_or in X; cbn in X; rewrite in_app_iff; intuition). apply in_or_app. rewrite in_app_iff in X'. cbn. intuition.
  - constructor; auto.
  - constructor; cbn; auto.
    + intros m M. rewrite !upd_diff by lia. auto.
    + intros q m M X. unfold upd at 1 in X. destruct (Nat.eqb_spec q (nq h1)) as [->|N]; [destruct X|]. assert (X' := X). apply (iv_in_lt _ _ _ _ I (iv_q_lt _ _ _ _ I X)) in X'. rewrite !upd_diff by lia. eauto.
  - constructor; auto. cbn. lra.
Qed.
(** entering sets the enter time to the present time; it stays the same as long as the component is in the queue *)
Theorem C34_enter_time : forall h o h' r c q, qreach h -> qwf h o -> qexec o h = (h', r) -> (q < nq h)%nat -> In c (names (p_l (abs h') q)) ->
  (In c (names (p_l (abs h) q)) -> enter_time c q h' = enter_time c q h) /\ (~ In c (names (p_l (abs h) q)) -> exists t, enter_time c q h' = Some t /\ t == ck h').
Proof.
  intros h o h' r c q R W E L C. change (names (p_l (abs h') q)) with (content h' q) in C. change (names (p_l (abs h) q)) with (content h q).
  destruct (reach_hp h R) as [f P]. pose proof (hp_inv _ _ P) as I. destruct (asks o) eqn:A.
  - assert (X : exists h1 r1, qexec o h = (h1, r1) /\ quiet h h1).
    { destruct o; try discriminate; [destruct (iter_ok h f q0 P W) as (h1 & E1 & Q & _)|destruct (next_hp h f i P) as (h1 & r1 & E1 & Q & _)]; eauto. }
    destruct X as (h2 & r2 & E2 & Q). rewrite E in E2. injection E2 as -> ->. destruct (quiet_abs h h2 f Q I) as [PN PL].
    assert (CO : content h2 q = content h q) by (unfold content; destruct (PL q) as [_ ->]; auto; cbn; rewrite (qt_nq _ _ Q); auto).
    split; [|intro N; rewrite CO in C; tauto]. intros _. unfold enter_time, member. rewrite (qt_mb _ _ Q), (qt_mm _ _ Q). auto.
  - destruct (exec_fine o h f I W A) as (h2 & f2 & r2 & E2 & (PR & TI) & SA & _). rewrite E in E2. injection E2 as -> ->.
    pose proof (hp_prims _ _ _ _ P PR) as P2. pose proof (hp_inv _ _ P2) as I2. pose proof (prims_older _ _ _ _ PR) as OL. pose proof (prims_timed _ _ _ _ PR) as TD.
    assert (L2 : (q < nq h2)%nat) by (pose proof (ol_nq _ _ OL); lia). apply (content_in h2 f2 q c I2 L2) in C. destruct C as (m & M & MC).
    assert (ET : enter_time c q h2 = Some (m_time (mm h2 m))) by (unfold enter_time; assert (X : member c q h2 = Some m) by (apply (iv_mb _ _ I2); auto); rewrite X; auto).
    rewrite ET. split.
    + intro C. apply (content_in h f q c I L) in C. destruct C as (m0 & M0 & MC0). assert (X : member c q h = Some m0) by (apply (iv_mb _ _ I); auto). unfold enter_time. rewrite X. f_equal.
      destruct (iv_in_lt _ _ _ _ I L M0) as [LM0 _]. assert (m = m0).
      { destruct (TI q) as [T|T].
        - pose proof (T m0 M0) as M0'. apply (iv_uniq h2 f2 c q m m0 I2 L2 M M0' MC). destruct (iv_comp _ _ I2 q m0 L2 M0') as [d D]. destruct (ol_mm _ _ OL m0 LM0) as (_ & [Y|Y]); congruence.
        - pose proof (T m M) as M'. destruct (iv_in_lt _ _ _ _ I L M') as [LM _]. apply (iv_uniq h f c q m m0 I L M' M0); auto. destruct (ol_mm _ _ OL m LM) as (_ & [Y|Y]); congruence. }
      subst m0. apply (td_old _ _ _ TD m LM0).
    + intro N. exists (m_time (mm h2 m)). split; auto.
      assert (NEW : (nm h <= m)%nat).
      { destruct (Nat.le_gt_cases (nm h) m) as [X|X]; auto. exfalso. apply N. apply (content_in h f q c I L). exists m.
        destruct (ol_mm _ _ OL m X) as (MQ & [Y|Y]); [|congruence]. rewrite Y in MC. split; auto. destruct (iv_in_lt _ _ _ _ I2 L2 M) as [_ QM]. rewrite QM in MQ. rewrite MQ. apply (iv_live _ _ I m c X MC). }
      pose proof (td_new _ _ _ TD q m NEW M) as B1. pose proof (lg_time _ _ (hp_log _ _ P2) q m L2 M) as B2.
      assert (NT : forall dt, o <> QTick dt).
      { intros dt ->. apply N. destruct SA as [_ SA]. destruct (SA q L2) as [_ SA2]. cbn [spec queue_of fst] in SA2. unfold content. rewrite <- SA2. apply (content_in h2 f2 q c I2 L2). eauto. }
      pose proof (still_exec o NT h) as ST. rewrite E in ST. cbn in ST. rewrite ST in *. lra.
Qed.
(** leaving tallies the time between entering and leaving *)
Theorem C34_length_of_stay : forall h c q h' r, qreach h -> (q < nq h)%nat -> qexec (QLeave c q) h = (h', Rok r) ->
  exists t, enter_time c q h = Some t /\ u_slog (qq h' q) = (ck h - t) :: u_slog (qq h q) /\ u_llog (qq h' q) = (ck h, Z.of_nat (length (p_l (abs h') q))) :: u_llog (qq h q).
Proof.
  intros h c q h' r R L E. destruct (reach_hp h R) as [f P]. pose proof (hp_inv _ _ P) as I. cbn [qexec] in E. rewrite unit_eq in E.
  destruct (member c q h) as [m|] eqn:M; [|rewrite (leave_none h c q M) in E; discriminate].
  destruct (in_split_at h f q c m I M) as (a & b & EF & C & _). destruct (leave_ok h f q a m b c I L EF C) as (h2 & E2 & LF & I2). rewrite E2 in E. injection E as <- <-.
  exists (m_time (mm h m)). unfold enter_time. rewrite M. split; auto. pose proof (abs_l h2 _ q I2) as AB. rewrite (lf_nq _ _ _ _ _ LF) in AB. rewrite AB by auto. rewrite upd_same, len_ents.
  rewrite (lf_q _ _ _ _ _ LF). cbn [q_out u_slog u_llog]. split; auto. f_equal. f_equal. rewrite (iv_len _ _ I q L), EF, !app_length. cbn. lia.
Qed.
(** the clock only moves when time passes *)
Theorem C34_clock : forall h o h' r, (forall dt, o <> QTick dt) -> qexec o h = (h', r) -> ck h' = ck h.
Proof. intros h o h' r N E. pose proof (still_exec o N h) as S. rewrite E in S. exact S. Qed.
(** the queue of the example: 10 stayed 4 time units; 11 and 12 are there since 3 time units: 1 + 3*3 + ... *)
Example C34_case : (0 < nq h1)%nat /\ u_llog (qq h1 0%nat) = [(4, 2%Z); (1, 3%Z); (1, 2%Z); (0, 1%Z); (0, 0%Z)] /\ u_slog (qq h1 0%nat) = [4] /\ map (been_in 0 h1) (names (p_l (abs h1) 0%nat)) = [3; 3] /\
  area (ck h1) (u_llog (qq h1 0%nat)) == 10.
Proof. split; [apply Nat.ltb_lt; vm_compute; reflexivity|]. split; [|split; [|split]]; vm_compute; reflexivity. Qed.
Example C34_case2 : exists h' t, qexec (QEnter 15 0 None) h1 = (h', Rok None) /\ enter_time 15 0 h' = Some t /\ t = 4.
Proof. eexists _, _. split; [vm_compute; reflexivity|]. split; vm_compute; reflexivity. Qed.
Print Assumptions C34_accounting.
Print Assumptions C34_enter_time.
Print Assumptions C34_length_of_stay.
Print Assumptions C34_clock.

(** ** C35: iterating over a queue while it changes *)
(** [loops i q h s]: generator i over queue q was made; [Some s]: it is not finished, and the components in s are those that it has given and
    that have not left the queue since; [None]: it is finished *)
Inductive loops (i q : nat) : heap -> option (list nat) -> Prop :=
| lp_new : forall h h', qreach h -> (q < nq h)%nat -> qexec (QIter q) h = (h', Rok (Some i)) -> loops i q h' (Some [])
| lp_give : forall h s h' c, loops i q h (Some s) -> qexec (QNext i) h = (h', Rok (Some c)) -> loops i q h' (Some (c :: s))
| lp_end : forall h s h', loops i q h s -> qexec (QNext i) h = (h', Rok None) -> loops i q h' None
| lp_other : forall h s o h' r, loops i q h s -> o <> QNext i -> qwf h o -> qexec o h = (h', r) ->
    loops i q h' (option_map (filter (fun c => memb c (names (p_l (abs h') q)))) s).
Lemma done_stays : forall h f i o h' r, Hp h f -> its h i = ItDone -> (i < ni h)%nat -> qwf h o -> qexec o h = (h', r) -> (forall c, r = Rok (Some c) -> o <> QNext i) /\ its h' i = ItDone /\ (i < ni h')%nat.
Proof.
  intros h f i o h' r P D LI W E. destruct (asks o) eqn:A.
  - destruct o; try discriminate.
    + destruct (iter_ok h f q P W) as (h2 & E2 & _ & _ & NI & IT). rewrite E in E2. injection E2 as -> ->. split; [intros; discriminate|]. rewrite IT, upd_diff by lia. split; auto. lia.
    + destruct P as [I IS LG]. cbn [qexec] in E. destruct (next_ok h f i0 I IS) as [(D1 & E1)|(q1 & seq & l & ix & h2 & r2 & R & E1 & Q & NI & OT & OUT)]; rewrite E in E1; injection E1 as -> ->.
      * split; [intros; discriminate|]. auto.
      * assert (N : i <> i0) by (intros ->; destruct R; congruence). split; [intros c _ X; injection X as ->; tauto|]. rewrite OT by auto. split; auto. lia.
  - destruct (exec_fine o h f (hp_inv _ _ P) W A) as (h2 & f2 & r2 & E2 & (PR & _) & _). rewrite E in E2. injection E2 as -> ->. pose proof (prims_older _ _ _ _ PR) as OL.
    split; [intros c _ ->; discriminate|]. rewrite (ol_its _ _ OL), (ol_ni _ _ OL). auto.
Qed.
Lemma loops_gives : forall i q h s, loops i q h s -> qreach h /\ (q < nq h)%nat /\ (i < ni h)%nat /\ exists f, Hp h f /\ match s with Some s => gives h f i q s | None => its h i = ItDone end.
Proof.
  intros i q h s LO. induction LO as [h h' R L E|h s h' c LO (R & L & LI & f & P & G) E|h s h' LO (R & L & LI & f & P & G) E|h s o h' r LO (R & L & LI & f & P & G) N W E].
  - destruct (reach_hp h R) as [f P]. destruct (iter_ok h f q P L) as (h2 & E2 & Q & P2 & NI & IT). rewrite E in E2. injection E2 as -> ->. split; [eapply qr_step; eauto; exact L|]. split; [rewrite (qt_nq _ _ Q); auto|]. split; [lia|].
    exists f. split; auto. left. rewrite IT, upd_same. auto.
  - destruct (gives_next h f i q s h' _ P L G E) as (_ & P2 & Q & G2). split; [eapply qr_step; eauto; exact LI|]. split; [rewrite (qt_nq _ _ Q); auto|]. destruct (next_hp h f i P) as (h2 & r2 & E2 & _ & _ & NI). rewrite E in E2. injection E2 as -> _.
    split; [rewrite NI; auto|]. exists f. auto.
  - destruct (next_hp h f i P) as (h2 & r2 & E2 & Q & P2 & NI). assert (h2 = h' /\ r2 = None) as [-> ->] by (rewrite E in E2; injection E2; auto). clear E2.
    split; [eapply qr_step; eauto; exact LI|]. split; [rewrite (qt_nq _ _ Q); auto|]. split; [rewrite NI; auto|]. exists f. split; auto.
    destruct s as [s|]; [destruct (gives_next h f i q s h' _ P L G E) as (_ & _ & _ & G2); exact G2|].
    destruct (done_stays h f i (QNext i) h' _ P G LI LI E) as (_ & D & _). auto.
  - assert (RR : qreach h') by (eapply qr_step; eauto). split; auto. destruct s as [s|]; cbn [option_map].
    + destruct (gives_other h f i q s o h' r P L LI G N W E) as (f' & P2 & G2 & NQ & NI). split; [lia|]. split; [lia|]. exists f'. split; auto.
    + destruct (done_stays h f i o h' r P G LI W E) as (_ & D & LI'). destruct (step_hp h f o h' r P W E) as [f' P']. split; [|split; auto; exists f'; auto].
      destruct (asks o) eqn:A; [destruct (C31_iterating_changes_nothing h o h' r R W A E) as [[NN _] _]; cbn in NN; lia|].
      destruct (exec_fine o h f (hp_inv _ _ P) W A) as (h2 & f2 & r2 & E2 & (PR & _) & _). rewrite E in E2. injection E2 as -> ->. pose proof (ol_nq _ _ (prims_older _ _ _ _ PR)). lia.
Qed.
(** the next component: the first one in the queue, as it is now, that has not been given yet since it entered; the loop ends if there is none *)
Theorem C35_next : forall i q h s h' r, loops i q h (Some s) -> qexec (QNext i) h = (h', r) -> r = Rok (find (fun c => negb (memb c s)) (names (p_l (abs h) q))).
Proof.
  intros i q h s h' r LO E. destruct (loops_gives i q h _ LO) as (R & L & LI & f & P & G). apply (gives_next h f i q s h' r P L G E).
Qed.
(** finished is finished *)
Theorem C35_finished : forall i q h h' r, loops i q h None -> qexec (QNext i) h = (h', r) -> r = Rok None.
Proof.
  intros i q h h' r LO E. destruct (loops_gives i q h _ LO) as (R & L & LI & f & P & G). destruct (next_hp h f i P) as (h2 & r2 & E2 & _). rewrite E in E2. injection E2 as -> ->.
  destruct (done_stays h f i (QNext i) h2 _ P G LI LI E) as (X & _). destruct r2 as [c|]; auto. exfalso. apply (X c); auto.
Qed.
(** a component that is given is in the queue at that moment and was not given since it entered *)
Theorem C35_given_once : forall i q h s h' c, loops i q h (Some s) -> qexec (QNext i) h = (h', Rok (Some c)) -> In c (names (p_l (abs h) q)) /\ ~ In c s.
Proof.
  intros i q h s h' c LO E. pose proof (C35_next i q h s h' _ LO E) as X. injection X as X. symmetry in X. apply find_some in X. destruct X as [A B]. split; auto.
  apply negb_true_iff in B. apply memb_false_iff. auto.
Qed.
(** when the loop ends every component in the queue has been given since it entered *)
Theorem C35_complete : forall i q h s h', loops i q h (Some s) -> qexec (QNext i) h = (h', Rok None) -> forall c, In c (names (p_l (abs h) q)) -> In c s.
Proof.
  intros i q h s h' LO E c C. pose proof (C35_next i q h s h' _ LO E) as X. injection X as X. symmetry in X. pose proof (find_none _ _ X c C) as Y. cbn in Y. apply negb_false_iff in Y. apply memb_iff. auto.
Qed.
(** an undisturbed loop gives the queue in order *)
Fixpoint collect (n i : nat) (h : heap) : list (option nat) := match n with O => [] | S k => match qexec (QNext i) h with (h', Rok x) => x :: collect k i h' | (h', Rer _) => [] end end.
Lemma collect_rest : forall i q L b a h, loops i q h (Some (rev a)) -> names (p_l (abs h) q) = L -> L = a ++ b -> NoDup L -> collect (S (length b)) i h = map Some b ++ [None].
Proof.
  intros i q L. induction b as [|c b IH]; intros a h LO NL E ND; cbn [length]; destruct (qexec (QNext i) h) as [h' r] eqn:EX; pose proof (C35_next i q h _ h' r LO EX) as X; rewrite NL, E in X.
  - rewrite app_nil_r in X. destruct (find (fun c => negb (memb c (rev a))) a) as [c|] eqn:F.
    + apply find_some in F. destruct F as [F1 F2]. apply negb_true_iff in F2. apply memb_false_iff in F2. exfalso. apply F2. rewrite <- in_rev. auto.
    + cbn [collect]. rewrite EX, X. reflexivity.
  - assert (F : find (fun c => negb (memb c (rev a))) (a ++ c :: b) = Some c).
    { subst L. rewrite E in ND. clear - ND. assert (G : forall z, (forall x, In x z -> In x a) -> find (fun c => negb (memb c (rev a))) (z ++ c :: b) = Some c).
      { induction z as [|x z IH]; intro S; cbn [app find].
        - assert (M : memb c (rev a) = false) by (apply memb_false_iff; rewrite <- in_rev; apply NoDup_remove_2 in ND; intro; apply ND; apply in_or_app; auto). rewrite M. auto.
        - assert (M : memb x (rev a) = true) by (apply memb_iff; rewrite <- in_rev; apply S; left; auto). rewrite M. cbn. apply IH. intros y Y. apply S. right. auto. }
      apply G. auto. }
    rewrite F in X. subst r. cbn [collect]. rewrite EX. cbn [map app]. f_equal. fold (collect (S (length b)) i h'). apply (IH (a ++ [c])).
    + rewrite rev_app_distr. eapply lp_give; eauto.
    + destruct (loops_gives i q h _ LO) as (R & Lq & LI & _). destruct (C31_iterating_changes_nothing h _ h' _ R (LI : qwf h (QNext i)) eq_refl EX) as [[PN S] _]. destruct (S q) as [_ ->]; auto. rewrite PN. exact Lq.
    + rewrite <- app_assoc. auto.
    + auto.
Qed.
Theorem C35_in_order : forall h q h' i, qreach h -> (q < nq h)%nat -> qexec (QIter q) h = (h', Rok (Some i)) ->
  collect (S (length (names (p_l (abs h) q)))) i h' = map Some (names (p_l (abs h) q)) ++ [None].
Proof.
  intros h q h' i R L E. destruct (C31_iterating_changes_nothing h _ h' _ R (L : qwf h (QIter q)) eq_refl E) as [[PN S] _]. destruct (S q) as [_ S2]; [rewrite PN; exact L|].
  apply (collect_rest i q (names (p_l (abs h) q)) _ []); [eapply lp_new; eauto|rewrite S2; auto|auto|]. apply (rd_once _ _ _ (C31_reading h q R L)).
Qed.
(** 11 is given, then 10 is entered and 12 leaves and enters again, after 10 *)
Example C35_case : exists h, loops 0 0 h (Some [11%nat]) /\ names (p_l (abs h) 0%nat) = [11; 10; 12]%nat /\ snd (qexec (QNext 0) h) = Rok (Some 10%nat).
Proof.
  set (ha := fst (qexec (QIter 0) h1)). set (hb := fst (qexec (QNext 0) ha)). set (hc := fst (qexec (QEnter 10 0 None) hb)). set (hd := fst (qexec (QLeave 12 0) hc)). set (he := fst (qexec (QEnter 12 0 None) hd)).
  assert (LT : forall a b, Nat.ltb a b = true -> (a < b)%nat) by (intros a b; apply Nat.ltb_lt).
  assert (PA : forall o h, qexec o h = (fst (qexec o h), snd (qexec o h))) by (intros; apply surjective_pairing).
  exists he. split; [|split; vm_compute; reflexivity].
  assert (A : loops 0 0 ha (Some [])) by (apply (lp_new 0 0 h1); [apply h1_reach|apply LT; vm_compute; reflexivity|rewrite PA; f_equal; vm_compute; reflexivity]).
  assert (B : loops 0 0 hb (Some [11%nat])) by (apply (lp_give 0 0 ha []); [exact A|rewrite PA; f_equal; vm_compute; reflexivity]).
  assert (C := lp_other 0 0 hb _ (QEnter 10 0 None) hc _ B ltac:(discriminate) ltac:(apply LT; vm_compute; reflexivity) (PA _ _)).
  assert (D := lp_other 0 0 hc _ (QLeave 12 0) hd _ C ltac:(discriminate) ltac:(apply LT; vm_compute; reflexivity) (PA _ _)).
  assert (E := lp_other 0 0 hd _ (QEnter 12 0 None) he _ D ltac:(discriminate) ltac:(apply LT; vm_compute; reflexivity) (PA _ _)).
  match type of E with loops _ _ _ ?s => replace s with (Some [11%nat]) in E by (vm_compute; reflexivity) end. exact E.
Qed.
Print Assumptions C35_next.
Print Assumptions C35_finished.
Print Assumptions C35_given_once.
Print Assumptions C35_complete.
Print Assumptions C35_in_order.

(** ** C36: set operations *)
(** [makes h o h' L]: the result is a new queue with contents L, and all queues that existed are as they were *)
Record makes (h : heap) (o : qop) (L : list entry) : Prop := {
  mk_ok : exists h', qexec o h = (h', Rok (Some (nq h))) /\ nq h' = S (nq h) /\ p_l (abs h') (nq h) = L /\ p_cap (abs h') (nq h) = PInf /\
            (forall q, (q < nq h)%nat -> p_l (abs h') q = p_l (abs h) q /\ p_cap (abs h') q = p_cap (abs h) q);
  mk_once : NoDup (names L) }.
Lemma spec_makes : forall h o L, qreach h -> qwf h o -> asks o = false -> spec o (abs h) = (p_new (abs h) PInf L, Rok (Some (p_n (abs h)))) -> makes h o L.
Proof.
  intros h o L R W A S. destruct (qexec o h) as [h' r] eqn:E. destruct (C31_operations h o h' r R W A E) as [[PN PL] X]. rewrite S in *. cbn [fst snd] in *. cbn [p_n abs p_new] in PN.
  assert (LL : p_l (abs h') (nq h) = L) by (destruct (PL (nq h)) as [_ ->]; [cbn; lia|]; cbn; apply upd_same).
  constructor.
  - exists h'. subst r. split; auto. split; auto. split; auto. split; [destruct (PL (nq h)) as [-> _]; [cbn; lia|]; cbn; apply upd_same|].
    intros q Q. destruct (PL q) as [-> ->]; [cbn; lia|]. cbn. rewrite !upd_diff by lia. auto.
  - rewrite <- LL. apply (rd_once _ _ _ (C31_reading h' (nq h) (qr_step _ _ _ _ R W E) ltac:(lia))).
Qed.
Theorem C36_union : forall h a b, qreach h -> (a < nq h)%nat -> (b < nq h)%nat ->
  exists L, makes h (QUnion a b) L /\ names L = names (p_l (abs h) a) ++ filter (fun c => negb (memb c (names (p_l (abs h) a)))) (names (p_l (abs h) b)) /\
    forall c, In c (names L) <-> In c (names (p_l (abs h) a)) \/ In c (names (p_l (abs h) b)).
Proof.
  intros h a b R LA LB. eexists. split; [apply spec_makes; auto; [split; auto|reflexivity]|]. 
  assert (N : forall A B, names (zero A ++ filter (fun e => negb (is_in (fst e) A)) (zero B)) = names A ++ filter (fun c => negb (memb c (names A))) (names B)).
  { intros A B. unfold names at 1. rewrite map_app. fold (names (zero A)). rewrite names_zero. f_equal. rewrite <- (names_zero B) at 1. apply (names_filter (fun c => negb (is_in c A))). }
  rewrite N. split; auto. intro c. rewrite in_app_iff, filter_In, negb_true_iff, memb_false_iff. destruct (in_dec Nat.eq_dec c (names (p_l (abs h) a))); tauto.
Qed.
Theorem C36_intersection : forall h a b, qreach h -> (a < nq h)%nat -> (b < nq h)%nat ->
  exists L, makes h (QInter a b) L /\ names L = filter (fun c => memb c (names (p_l (abs h) b))) (names (p_l (abs h) a)) /\
    forall c, In c (names L) <-> In c (names (p_l (abs h) a)) /\ In c (names (p_l (abs h) b)).
Proof.
  intros h a b R LA LB. eexists. split; [apply spec_makes; auto; [split; auto|reflexivity]|].
  assert (N : forall A B, names (filter (fun e => is_in (fst e) B) (zero A)) = filter (fun c => memb c (names B)) (names A)).
  { intros A B. rewrite <- (names_zero A). apply (names_filter (fun c => is_in c B)). }
  rewrite N. split; auto. intro c. rewrite filter_In, memb_iff. tauto.
Qed.
(** difference keeps the priorities; the other operations give priority 0 *)
Theorem C36_difference : forall h a b, qreach h -> (a < nq h)%nat -> (b < nq h)%nat ->
  makes h (QDiff a b) (filter (fun e => negb (memb (fst e) (names (p_l (abs h) b)))) (p_l (abs h) a)) /\
  forall c, In c (names (filter (fun e => negb (memb (fst e) (names (p_l (abs h) b)))) (p_l (abs h) a))) <-> In c (names (p_l (abs h) a)) /\ ~ In c (names (p_l (abs h) b)).
Proof.
  intros h a b R LA LB. split; [apply spec_makes; auto; split; auto|]. intro c. rewrite (names_filter (fun c => negb (memb c (names (p_l (abs h) b))))), filter_In, negb_true_iff, memb_false_iff. tauto.
Qed.
Theorem C36_symmetric_difference : forall h a b, qreach h -> (a < nq h)%nat -> (b < nq h)%nat ->
  exists L, makes h (QSym a b) L /\
    names L = filter (fun c => negb (memb c (names (p_l (abs h) b)))) (names (p_l (abs h) a)) ++ filter (fun c => negb (memb c (names (p_l (abs h) a)))) (names (p_l (abs h) b)) /\
    forall c, In c (names L) <-> (In c (names (p_l (abs h) a)) /\ ~ In c (names (p_l (abs h) b))) \/ (In c (names (p_l (abs h) b)) /\ ~ In c (names (p_l (abs h) a))).
Proof.
  intros h a b R LA LB. eexists. split; [apply spec_makes; auto; [split; auto|reflexivity]|].
  assert (N : forall A B, names (filter (fun e => negb (is_in (fst e) B)) (zero A)) = filter (fun c => negb (memb c (names B))) (names A)).
  { intros A B. rewrite <- (names_zero A). apply (names_filter (fun c => negb (is_in c B))). }
  assert (N2 : forall A B : list entry, names (A ++ B) = names A ++ names B) by (intros; apply map_app).
  rewrite N2, !N. split; auto. intro c. rewrite in_app_iff, !filter_In, !negb_true_iff, !memb_false_iff. tauto.
Qed.
Theorem C36_copy : forall h a, qreach h -> (a < nq h)%nat -> makes h (QCopy a false) (p_l (abs h) a).
Proof. intros h a R LA. apply spec_makes; auto. Qed.
Theorem C36_move : forall h a, qreach h -> (a < nq h)%nat ->
  exists h', qexec (QMove a false) h = (h', Rok (Some (nq h))) /\ nq h' = S (nq h) /\ p_l (abs h') (nq h) = p_l (abs h) a /\ p_l (abs h') a = [] /\ forall q, (q < nq h)%nat -> q <> a -> p_l (abs h') q = p_l (abs h) q.
Proof.
  intros h a R LA. destruct (qexec (QMove a false) h) as [h' r] eqn:E. destruct (C31_operations h _ h' r R (LA : qwf h (QMove a false)) eq_refl E) as [[PN PL] X]. cbn in PN, X. exists h'. subst r. split; auto. split; auto.
  assert (P : forall q, (q < S (nq h))%nat -> p_l (abs h') q = upd (upd (p_l (abs h)) (nq h) (p_l (abs h) a)) a [] q) by (intros q Q; destruct (PL q) as [_ ->]; [cbn; lia|reflexivity]).
  split; [rewrite P by lia; rewrite upd_diff by lia; apply upd_same|]. split; [rewrite P by lia; apply upd_same|]. intros q Q N. rewrite P by lia. rewrite !upd_diff by lia. auto.
Qed.
(** with copy_capacity the copy fails if the capacity was set below the length, and half of a queue is left behind *)
Theorem C36_copy_capacity_refuted : exists h a h', qreach h /\ (a < nq h)%nat /\ qexec (QCopy a true) h = (h', Rer EFull) /\ nq h' = S (nq h) /\ p_l (abs h') (nq h) <> p_l (abs h) a /\ p_l (abs h') (nq h) <> [].
Proof.
  set (p := [QNew PInf; QEnter 10 0 None; QEnter 11 0 None; QSetCap 0 (Fin 1)]).
  exists (run_all p (start 0)), 0%nat. eexists. split; [apply run_reach; [constructor|]; cbn [all_wf p]; repeat split; vm_compute; auto with arith|]. split; [apply Nat.ltb_lt; vm_compute; reflexivity|].
  split; [vm_compute; reflexivity|]. split; [vm_compute; reflexivity|]. split; vm_compute; discriminate.
Qed.
(** extend: the components that were not in the queue yet, in order, each once, with the priority of the last one *)
Theorem C36_extend : forall h q l, qreach h -> (q < nq h)%nat -> p_cap (abs h) q = PInf ->
  exists h' L, qexec (QExtend q l) h = (h', Rok None) /\ p_l (abs h') q = L /\ (exists N, L = p_l (abs h) q ++ N /\ forall e, In e N -> snd e = prio_last (p_l (abs h) q)) /\
    (forall c, In c (names L) <-> In c (names (p_l (abs h) q)) \/ In c l) /\ NoDup (names L) /\ forall q', (q' < nq h)%nat -> q' <> q -> p_l (abs h') q' = p_l (abs h) q'.
Proof.
  intros h q l R L CAP. destruct (qexec (QExtend q l) h) as [h' r] eqn:E. destruct (C31_operations h _ h' r R (L : qwf h (QExtend q l)) eq_refl E) as [[PN PL] X].
  assert (G : forall l L, exists N, add_all PInf l L = (L ++ N, Rok None) /\ (forall e, In e N -> snd e = prio_last L) /\ forall c, In c (names (L ++ N)) <-> In c (names L) \/ In c l).
  { clear. induction l as [|c l IH]; intro L.
    - exists []. rewrite app_nil_r. cbn. split; auto. split; [intros e []|]. tauto.
    - cbn [add_all]. destruct (is_in c L) eqn:IN.
      + destruct (IH L) as (N & A & B & C). exists N. split; auto. split; auto. intro d. rewrite C. cbn. apply is_in_iff in IN. intuition. subst. auto.
      + cbn [is_full xltb]. destruct (IH (L ++ [(c, prio_last L)])) as (N & A & B & C). exists ((c, prio_last L) :: N). rewrite <- app_assoc in A, C. split; auto. split.
        * assert (PQ : prio_last (L ++ [(c, prio_last L)]) = prio_last L) by (unfold prio_last at 1; rewrite map_app; cbn; apply last_last). rewrite PQ in B. intros e [<-|Y]; auto.
        * intro d. cbn [app] in C. rewrite C. unfold names. rewrite map_app, in_app_iff. cbn. tauto. }
  unfold spec in *. cbn [queue_of on_queue] in *. rewrite CAP in *. destruct (G l (p_l (abs h) q)) as (N & A & B & C). rewrite A in *. cbn in X. subst r. cbn [fst] in PN, PL. cbn in PN.
  assert (P : forall q', (q' < nq h)%nat -> p_l (abs h') q' = upd (p_l (abs h)) q (p_l (abs h) q ++ N) q') by (intros q' Q; destruct (PL q') as [_ ->]; [cbn; lia|reflexivity]).
  exists h', (p_l (abs h) q ++ N). split; auto. split; [rewrite P by auto; apply upd_same|]. split; [eauto|]. split; auto. split; [|intros q' Q NE; rewrite P by auto; apply upd_diff; auto].
  assert (Q : p_l (abs h') q = p_l (abs h) q ++ N) by (rewrite P by auto; apply upd_same). rewrite <- Q. apply (rd_once _ _ _ (C31_reading h' q (qr_step h (QExtend q l) h' _ R L E) ltac:(lia))).
Qed.
(** extend(source, clear_source=True) 5411-5433 of a queue: the loop over source, and then source.clear(); the loop reads
    source while self grows, which for another queue than self is the list of its components *)
Definition extend_clearing (q s : nat) (h : heap) : heap * res (option nat) :=
  match qexec (QExtend q (names (p_l (abs h) s))) h with
  | (h1, Rok _) => qexec (QClear s) h1
  | (h1, Rer e) => (h1, Rer e)
  end.
(** all components of the source have moved: each is in the queue, once, and the source is empty *)
Theorem C36_extend_clearing : forall h q s, qreach h -> (q < nq h)%nat -> (s < nq h)%nat -> q <> s -> p_cap (abs h) q = PInf ->
  exists h' L, extend_clearing q s h = (h', Rok None) /\ p_l (abs h') s = [] /\ p_l (abs h') q = L /\ (exists N, L = p_l (abs h) q ++ N /\ forall e, In e N -> snd e = prio_last (p_l (abs h) q)) /\
    (forall c, In c (names L) <-> In c (names (p_l (abs h) q)) \/ In c (names (p_l (abs h) s))) /\ NoDup (names L) /\
    forall q', (q' < nq h)%nat -> q' <> q -> q' <> s -> p_l (abs h') q' = p_l (abs h) q'.
Proof.
  intros h q s R L LS NE CAP. destruct (C36_extend h q (names (p_l (abs h) s)) R L CAP) as (h1 & L1 & E & Q1 & N1 & M1 & D1 & O1).
  pose proof (qr_step h (QExtend q (names (p_l (abs h) s))) h1 _ R L E) as R1.
  destruct (C31_operations h _ h1 _ R (L : qwf h (QExtend q (names (p_l (abs h) s)))) eq_refl E) as [[PN _] _].
  assert (NQ : nq h1 = nq h) by (unfold spec in PN; cbn [queue_of] in PN; destruct (on_queue (QExtend q (names (p_l (abs h) s))) (p_cap (abs h) q) (p_l (abs h) q)); exact PN).
  destruct (qexec (QClear s) h1) as [h2 r] eqn:E2. assert (LS1 : (s < nq h1)%nat) by (rewrite NQ; auto).
  destruct (C31_operations h1 _ h2 r R1 (LS1 : qwf h1 (QClear s)) eq_refl E2) as [[PN2 PL2] X2]. cbn in X2. subst r. cbn in PN2.
  assert (P : forall q', (q' < nq h)%nat -> p_l (abs h2) q' = upd (p_l (abs h1)) s [] q') by (intros q' Q; destruct (PL2 q') as [_ ->]; [cbn; lia|reflexivity]).
  exists h2, L1. unfold extend_clearing. rewrite E, E2. split; [reflexivity|]. split; [rewrite P by auto; apply upd_same|]. split; [rewrite P, upd_diff by auto; exact Q1|]. split; [exact N1|]. split; [exact M1|]. split; [exact D1|].
  intros q' Q A B. rewrite P, upd_diff by auto. apply O1; auto.
Qed.
(** when the queue gets full the source is not cleared, so no component is lost *)
Theorem C36_extend_full : forall h q s h' e, qreach h -> (q < nq h)%nat -> (s < nq h)%nat -> q <> s -> extend_clearing q s h = (h', Rer e) -> p_l (abs h') s = p_l (abs h) s.
Proof.
  intros h q s h' e R L LS NE H. unfold extend_clearing in H. destruct (qexec (QExtend q (names (p_l (abs h) s))) h) as [h1 r] eqn:E.
  destruct (C31_operations h _ h1 r R (L : qwf h (QExtend q (names (p_l (abs h) s)))) eq_refl E) as [[PN PL] X].
  pose proof (qr_step h (QExtend q (names (p_l (abs h) s))) h1 _ R L E) as R1.
  assert (NQ : nq h1 = nq h /\ p_l (abs h1) s = p_l (abs h) s).
  { unfold spec in PN, PL. cbn [queue_of] in PN, PL. destruct (on_queue (QExtend q (names (p_l (abs h) s))) (p_cap (abs h) q) (p_l (abs h) q)) as (L1, r1). cbn [fst p_set] in PN, PL.
    split; [exact PN|]. assert (SS : (s < p_n (abs h1))%nat) by (rewrite PN; exact LS). destruct (PL s SS) as [_ ->]. cbn [p_l p_set]. apply upd_diff; auto. }
  destruct NQ as (NQ & SS). destruct r as [x|e']; [|injection H as <- _; exact SS].
  assert (LS1 : (s < nq h1)%nat) by (rewrite NQ; auto). destruct (C31_operations h1 _ h' _ R1 (LS1 : qwf h1 (QClear s)) eq_refl H) as [_ X2]. cbn in X2. discriminate X2.
Qed.
(** violated: with itself as source, where every component is found in the queue, all components are lost *)
Theorem C36_extend_self_refuted : exists h q h', qreach h /\ (q < nq h)%nat /\ p_cap (abs h) q = PInf /\ names (p_l (abs h) q) = [11; 12]%nat /\ extend_clearing q q h = (h', Rok None) /\ p_l (abs h') q = [].
Proof.
  exists h1, 0%nat. eexists. split; [apply h1_reach|]. split; [apply Nat.ltb_lt; vm_compute; reflexivity|]. split; [vm_compute; reflexivity|]. split; [vm_compute; reflexivity|]. split; vm_compute; reflexivity.
Qed.
Example C36_case2 : exists h', extend_clearing 0 1 h1 = (h', Rok None) /\ p_l (abs h') 0%nat = [(11, Fin 3); (12, Fin 4); (13, Fin 4)]%nat /\ p_l (abs h') 1%nat = [].
Proof. eexists. split; [vm_compute; reflexivity|]. split; vm_compute; reflexivity. Qed.
Example C36_case : (0 < nq h1)%nat /\ (1 < nq h1)%nat /\ (exists h', qexec (QUnion 0 1) h1 = (h', Rok (Some 2%nat)) /\ names (p_l (abs h') 2%nat) = [11; 12; 13]%nat) /\
  (exists h', qexec (QSym 0 1) h1 = (h', Rok (Some 2%nat)) /\ names (p_l (abs h') 2%nat) = [11; 13]%nat) /\ p_cap (abs h1) 0%nat = PInf.
Proof.
  split; [apply Nat.ltb_lt; vm_compute; reflexivity|]. split; [apply Nat.ltb_lt; vm_compute; reflexivity|]. split; [eexists; split; vm_compute; reflexivity|]. split; [eexists; split; vm_compute; reflexivity|]. vm_compute. reflexivity.
Qed.
Print Assumptions C36_union.
Print Assumptions C36_intersection.
Print Assumptions C36_difference.
Print Assumptions C36_symmetric_difference.
Print Assumptions C36_copy.
Print Assumptions C36_move.
Print Assumptions C36_copy_capacity_refuted.
Print Assumptions C36_extend.
Print Assumptions C36_extend_clearing.
