(** Invariants of monitors, continued: the cache, and what the statistics see *)
From Coq Require Import QArith Qround Lqa List Bool Arith ZArith Lia.
From Verif Require Import Base Util Mon MonSpec MonP MonQ.
Import ListNotations.
Open Scope Q_scope.

Definition pairs (r : xw) : list (val * Q) := combine (fst r) (snd r).
Definition weq (r r' : xw) : Prop := fst r = fst r' /\ Forall2 Qeq (snd r) (snd r').
Definition totals (r r' : xw) : Prop := forall g, total_of g (pairs r) == total_of g (pairs r').
Definition even (r : xw) : Prop := length (fst r) = length (snd r).

Lemma F2_refl : forall l, Forall2 Qeq l l.
Proof. induction l; constructor; auto. reflexivity. Qed.
Lemma F2_sym : forall l k, Forall2 Qeq l k -> Forall2 Qeq k l.
Proof. intros l k F. induction F; constructor; auto. symmetry. auto. Qed.
Lemma F2_trans : forall l k j, Forall2 Qeq l k -> Forall2 Qeq k j -> Forall2 Qeq l j.
Proof. intros l k j F. revert j. induction F as [|a b l k E F IH]; intros j G; inversion G; subst; constructor; auto. transitivity b; auto. Qed.
Lemma weq_refl : forall r, weq r r.
Proof. intro r. split; auto using F2_refl. Qed.
Lemma weq_trans : forall a b c, weq a b -> weq b c -> weq a c.
Proof. intros a b c [A1 A2] [B1 B2]. split; [congruence|eauto using F2_trans]. Qed.
Lemma weq_totals : forall a b, weq a b -> totals a b.
Proof.
  intros [x w] [y u] [E F]. cbn in *. subst y. intro g. unfold pairs. cbn. revert x. induction F as [|p q l k E F IH]; intro x; destruct x as [|a x]; cbn; try reflexivity. rewrite E, IH. reflexivity.
Qed.
Lemma F2_length : forall A B (R : A -> B -> Prop) l k, Forall2 R l k -> length l = length k.
Proof. intros A B R l k F. induction F; cbn; auto. Qed.
Lemma weq_even : forall a b, weq a b -> even b -> even a.
Proof. intros [x w] [y u] [E F]. unfold even. cbn in *. subst y. intro L. apply F2_length in F. congruence. Qed.

(** *** what _xweight gives for a level monitor *)
Definition cvt (ty : mtype) (force : bool) (x : val) : val := if ty_any ty && force then numeric x else x.
Definition keep (ex0 : bool) (x : val) : bool := negb ex0 || negb (veqb x (Num 0)).
Lemma cvt_off : forall ty force x, veqb (cvt ty force x) (off_of ty) = veqb x (off_of ty).
Proof. intros [| |lo hi o] [|] [q| |i [q|]]; reflexivity. Qed.
Lemma combine_split_eq : forall A B (l : list (A * B)), combine (map fst l) (map snd l) = l.
Proof. induction l as [|[a b] r IH]; cbn; auto. congruence. Qed.
Lemma filter_rev' : forall A (f : A -> bool) l, filter f (rev l) = rev (filter f l).
Proof. induction l as [|a r IH]; cbn; auto. rewrite filter_app, IH. cbn. destruct (f a); cbn; [auto|apply app_nil_r]. Qed.
Lemma xw_level : forall ex0 force v m, m_level m = true ->
  pairs (xweight0 ex0 force v m) = rev (filter (fun p => negb (veqb (fst p) (m_off m)) && keep ex0 (fst p)) (map (fun p => (cvt (m_type m) force (fst p), snd p)) (durs (v_now v) (m_e m)))).
Proof. intros ex0 force v m L. unfold pairs, xweight0. rewrite L. cbn [fst snd]. rewrite combine_split_eq, map_rev, filter_rev'. reflexivity. Qed.
Lemma total_filters : forall off ty ex0 force g l, off = off_of ty ->
  total_of g (filter (fun p => negb (veqb (fst p) off) && keep ex0 (fst p)) (map (fun p => (cvt ty force (fst p), snd p)) l)) == gsum off (fun x => if keep ex0 (cvt ty force x) then g (cvt ty force x) else 0) l.
Proof.
  intros off ty ex0 force g l ->. unfold gsum. induction l as [|[x w] r IH]; [reflexivity|].
  change (map (fun p : val * Q => (cvt ty force (fst p), snd p)) ((x, w) :: r)) with ((cvt ty force x, w) :: map (fun p : val * Q => (cvt ty force (fst p), snd p)) r). cbn [filter fst]. rewrite cvt_off. destruct (veqb x (off_of ty)); cbn [negb andb]; auto.
  destruct (keep ex0 (cvt ty force x)) eqn:K; cbn [total_of]; rewrite K, <- IH; ring.
Qed.
Lemma xw_total : forall ex0 force v m g, m_level m = true -> total_of g (pairs (xweight0 ex0 force v m)) == gsum (m_off m) (fun x => if keep ex0 (cvt (m_type m) force x) then g (cvt (m_type m) force x) else 0) (durs (v_now v) (m_e m)).
Proof. intros. rewrite xw_level, total_rev by auto. apply total_filters. reflexivity. Qed.
Lemma xw_even : forall ex0 force v m, (m_level m = false -> match m_w m with WList w => length w = length (m_e m) | _ => True end) -> even (xweight0 ex0 force v m).
Proof.
  intros ex0 force v m W. unfold even, xweight0. destruct (m_level m); cbn [fst snd]; [rewrite !map_length; auto|].
  destruct (m_w m) as [| |w]; cbn [fst snd]; try (rewrite repeat_length; auto). specialize (W eq_refl). destruct ex0; cbn [fst snd].
  - rewrite map_length.
    assert (X : forall (x : list val) (u : list Q) f, length x = length u -> length (filter f x) = length (filter (fun p => f (fst p)) (combine x u))).
    { induction x as [|a x IH]; intros [|b u] f E; cbn in *; auto; try discriminate. injection E as E. destruct (f a); cbn; rewrite (IH u f E); auto. }
    apply X. rewrite map_length, !rev_length. auto.
  - rewrite map_length, !rev_length. auto.
Qed.
Lemma weights_length : forall w l, weights_ok w l -> match w with WList u => length u = length l | _ => True end.
Proof. intros [| |u] l W; cbn in *; auto. eapply F2_length; eauto. Qed.
Lemma minv_even : forall v m h ex0 force, Minv v m h -> m_stats m = false -> even (xweight0 ex0 force v m).
Proof.
  intros v m h ex0 force I S. apply xw_even. intro L. destruct (mi_pla _ _ _ I S L) as [PE PW PV]. apply weights_length in PW. destruct (m_w m); auto. rewrite PE, map_length. auto.
Qed.

(** *** the cache *)
Definition good (v : menv) (m : mon) (k : bool * bool) (r : xw) : Prop :=
  even r /\ totals r (xweight0 (fst k) (snd k) v m) /\ (m_on m = true \/ m_level m = false -> weq r (xweight0 (fst k) (snd k) v m)).
Definition Cinv (v : menv) (m : mon) : Prop :=
  (m_stats m = true -> m_cache m = []) /\ forall k t r, cget k (m_cache m) = Some (t, r) -> t <= v_now v /\ (t == v_now v -> good v m k r).
Lemma cinv_nil : forall v m, m_cache m = [] -> Cinv v m.
Proof. intros v m E. split; auto. rewrite E. discriminate. Qed.
Lemma tally_cache : forall v m x w, m_gen m = false -> m_cache (fst (tally x w v m)) = if m_stats m then m_cache m else [].
Proof.
  intros v m x w G. unfold tally. rewrite G. destruct (m_stats m).
  - destruct (m_level m && negb (Qeq_bool w 1)); auto. cbv zeta. set (m1 := if m_level m then set_tally _ _ _ else m). assert (E : m_cache m1 = m_cache m) by (unfold m1; destruct (m_level m), (m_on m); auto). clearbody m1.
    destruct (m_on m && _); auto. destruct (acc_add _ _ _); auto. destruct (Qeq_bool _ 0); auto. destruct (acc_add _ _ _); auto.
  - cbv zeta. cbn [set_cache m_level m_on m_e m_w m_type]. destruct (m_level m).
    + destruct (negb _); auto. destruct (veqb _ _); auto. cbn [set_tally set_cache m_on m_e m_type]. destruct (m_on m); auto. destruct (m_e m) as [|[s y] r]; auto. destruct (fits _ _); auto.
    + destruct (m_on m); auto. cbn [set_w set_cache m_type]. destruct (fits _ _); auto.
Qed.
Lemma add_now_cache : forall v m, m_gen m = false -> m_cache (fst (tally_add_now v m)) = if m_stats m then m_cache m else [].
Proof. intros v m G. unfold tally_add_now. pose proof (tally_cache v m (m_tally m) 1 G) as E. destruct (tally (m_tally m) 1 v m) as [m1 [u|e]]; auto. Qed.
Lemma add_now_stats : forall v m, m_stats (fst (tally_add_now v m)) = m_stats m.
Proof.
  assert (T : forall x w v m, m_stats (fst (tally x w v m)) = m_stats m).
  { intros x w v m. unfold tally. destruct (m_gen m); auto. destruct (m_stats m) eqn:S.
  - destruct (m_level m && negb (Qeq_bool w 1)); auto. cbv zeta. set (m1 := if m_level m then set_tally _ _ _ else m). assert (E : m_stats m1 = true) by (unfold m1; destruct (m_level m), (m_on m); auto). clearbody m1.
    destruct (m_on m && _); auto. destruct (acc_add _ _ _); auto. destruct (Qeq_bool _ 0); auto. destruct (acc_add _ _ _); auto.
  - cbv zeta. cbn [set_cache m_level m_on m_e m_w m_type]. destruct (m_level m).
    + destruct (negb _); auto. destruct (veqb _ _); auto. cbn [set_tally set_cache m_on m_e m_type]. destruct (m_on m); auto. destruct (m_e m) as [|[s y] r]; auto. destruct (fits _ _); auto.
    + destruct (m_on m); auto. cbn [set_w set_cache m_type]. destruct (fits _ _); auto. }
  intros v m. unfold tally_add_now. pose proof (T (m_tally m) 1 v m) as E. destruct (tally (m_tally m) 1 v m) as [m1 [u|e]]; auto.
Qed.
Lemma monitor_cache_stats : forall v m b, m_gen m = false -> m_stats m = true -> m_cache (fst (monitor (Some b) v m)) = m_cache m.
Proof.
  intros v m b G S. unfold monitor. rewrite S. destruct (m_on m && m_level m); auto. pose proof (add_now_cache v m G) as E. rewrite S in E. destruct (tally_add_now v m) as [m1 [u|e]]; auto.
Qed.
Lemma xw_tick_level : forall v v' e, v_now v == v_now v' -> map fst (durs (v_now v) e) = map fst (durs (v_now v') e) /\ Forall2 Qeq (map snd (durs (v_now v) e)) (map snd (durs (v_now v') e)).
Proof. intros v v' [|[s x] r] E; cbn [durs map fst snd]; auto. split; auto. constructor; [rewrite E; reflexivity|apply F2_refl]. Qed.
Lemma filter_pairs_weq : forall (f : val -> bool) (l k : list (val * Q)), map fst l = map fst k -> Forall2 Qeq (map snd l) (map snd k) ->
  map fst (filter (fun p => f (fst p)) l) = map fst (filter (fun p => f (fst p)) k) /\ Forall2 Qeq (map snd (filter (fun p => f (fst p)) l)) (map snd (filter (fun p => f (fst p)) k)).
Proof.
  intros f. induction l as [|[x w] l IH]; intros [|[y u] k] E F; cbn [map fst snd] in *; try discriminate; [auto|]. injection E as <- E. inversion F; subst. destruct (IH k E H4) as [A B]. cbn [filter fst]. destruct (f x); cbn [map fst snd]; auto. split; [congruence|constructor; auto].
Qed.
Lemma map_pairs_weq : forall (f : val -> val) (l k : list (val * Q)), map fst l = map fst k -> Forall2 Qeq (map snd l) (map snd k) ->
  map fst (map (fun p => (f (fst p), snd p)) l) = map fst (map (fun p => (f (fst p), snd p)) k) /\ Forall2 Qeq (map snd (map (fun p => (f (fst p), snd p)) l)) (map snd (map (fun p => (f (fst p), snd p)) k)).
Proof. intros f l k E F. rewrite !map_map. cbn [fst snd]. split; auto. rewrite <- (map_map fst f l), <- (map_map fst f k), E. auto. Qed.
Lemma F2_rev : forall l k, Forall2 Qeq l k -> Forall2 Qeq (rev l) (rev k).
Proof. intros l k F. induction F; cbn; auto. apply Forall2_app; auto. Qed.
Lemma xw_tick : forall ex0 force v v' m, v_now v == v_now v' -> weq (xweight0 ex0 force v m) (xweight0 ex0 force v' m).
Proof.
  intros ex0 force v v' m E. unfold xweight0. destruct (m_level m); [|apply weq_refl]. cbn [fst snd]. destruct (xw_tick_level v v' (m_e m) E) as [A B].
  split; cbn [fst snd]; apply filter_pairs_weq with (f := fun x => negb (veqb x (m_off m)) && keep ex0 x); apply map_pairs_weq with (f := cvt (m_type m) force); rewrite ?map_rev; try congruence; apply F2_rev; auto.
Qed.
Lemma cinv_tick : forall v v' m, Cinv v m -> v_now v <= v_now v' -> Cinv v' m.
Proof.
  intros v v' m [A B] L. split; auto. intros k t r E. destruct (B k t r E) as [T G]. split; [lra|]. intro TE. assert (EN : v_now v == v_now v') by lra. destruct (G ltac:(lra)) as (G1 & G2 & G3).
  split; [auto|]. split.
  - intro g. rewrite (G2 g). apply weq_totals. apply xw_tick. auto.
  - intro O. eapply weq_trans; [apply G3; auto|apply xw_tick; auto].
Qed.
Lemma cget_cons : forall k k' x c, cget k ((k', x) :: c) = if key_eqb k k' then Some x else cget k c.
Proof. auto. Qed.
Lemma key_eqb_true : forall a b, key_eqb a b = true -> a = b.
Proof. intros [a b] [c d] E. unfold key_eqb in E. cbn in E. apply andb_true_iff in E. destruct E as [A B]. apply eqb_prop in A, B. congruence. Qed.
Lemma good_self : forall v m h k, Minv v m h -> m_stats m = false -> good v m k (xweight0 (fst k) (snd k) v m).
Proof. intros v m h k I S. split; [eapply minv_even; eauto|]. split; [intro g; reflexivity|intros; apply weq_refl]. Qed.
Lemma good_cache : forall v m c k r, good v (set_cache c m) k r <-> good v m k r.
Proof. intros. reflexivity. Qed.
Lemma xweight_cinv : forall v m h ex0 force m' r, Minv v m h -> Cinv v m -> m_stats m = false -> xweight ex0 force v m = (m', r) -> Cinv v m' /\ good v m (ex0, force) r /\ exists c, m' = set_cache c m.
Proof.
  intros v m h ex0 force m' r I [A B] S E. unfold xweight in E.
  assert (NEW : Cinv v (set_cache ((ex0, force, (v_now v, xweight0 ex0 force v m)) :: m_cache m) m) /\ good v m (ex0, force) (xweight0 ex0 force v m)).
  { split; [|apply (good_self v m h (ex0, force) I S)]. split; [cbn; congruence|]. cbn [set_cache m_cache]. intros k t r0. rewrite cget_cons. destruct (key_eqb k (ex0, force)) eqn:K.
    - apply key_eqb_true in K. subst k. intro E1. injection E1 as <- <-. split; [apply Qle_refl|]. intros _. apply good_cache. apply (good_self v m h (ex0, force) I S).
    - intro E1. destruct (B k t r0 E1) as [B1 B2]. split; auto. }
  assert (SAME : m = set_cache (m_cache m) m) by (destruct m; auto).
  destruct (cget (ex0, force) (m_cache m)) as [[t r0]|] eqn:C; [destruct (Qeq_bool t (v_now v)) eqn:T|]; injection E as <- <-.
  - apply Qeqb_true in T. destruct (B _ _ _ C) as [_ G]. split; [split; auto|]. split; eauto.
  - destruct NEW. eauto.
  - destruct NEW. eauto.
Qed.
Lemma tally_off_cinv : forall v m h, Minv v m h -> Cinv v m -> m_stats m = false -> m_level m = true -> forall m' u, tally_off v (set_on false m) = (m', u) -> Cinv v m'.
Proof.
  intros v m h I [A B] S L m' u E. unfold tally_off in E. cbn [set_on m_gen m_e] in E. rewrite (mi_gen _ _ _ I) in E. pose proof (mi_lev _ _ _ I S L) as LEV. destruct (lv_head _ _ _ LEV) as (s & r & HD). rewrite HD in E. rewrite <- HD in E.
  injection E as <- <-. split; [cbn; congruence|]. cbn [set_e set_on m_cache]. intros k t r0 C. destruct (B k t r0 C) as [T G]. split; auto. intro TE. destruct (G TE) as (G1 & G2 & _). split; [auto|]. split; [|cbn; intros [X|X]; congruence].
  intro g. rewrite (G2 g), !xw_total by auto. cbn [set_e set_on m_e m_type]. change (m_off (set_e (put_last (v_now v) (m_off (set_on false m)) (m_e m)) (set_on false m))) with (m_off m). change (m_off (set_on false m)) with (m_off m).
  rewrite total_filter_put by (apply (lv_decr _ _ _ LEV)). rewrite veqb_refl. ring.
Qed.
Lemma monitor_cinv : forall v m h b, Minv v m h -> Cinv v m -> Cinv v (fst (monitor (Some b) v m)).
Proof.
  intros v m h b I C. pose proof (mi_gen _ _ _ I) as G. destruct (m_stats m) eqn:S.
  - apply cinv_nil. rewrite monitor_cache_stats by auto. destruct C as [A _]. auto.
  - unfold monitor. rewrite S, G, andb_false_r. cbn [set_on m_level]. destruct (m_level m) eqn:L.
    + destruct b.
      * apply cinv_nil. rewrite tally_cache by auto. cbn [set_on m_stats]. rewrite S. auto.
      * destruct (tally_off v (set_on false m)) as [m' u] eqn:E. eapply tally_off_cinv; eauto.
    + cbn [fst]. destruct C as [A B]. split; auto. intros k t r E. destruct (B k t r E) as [T X]. split; auto. intro TE. destruct (X TE) as (X1 & X2 & X3). split; [auto|]. split; auto.
Qed.
Lemma reset_cinv : forall v m mo so, m_gen m = false -> Cinv v (fst (reset mo so v m)).
Proof.
  intros v m mo so G. unfold reset. rewrite G. set (m4 := if m_stats _ then _ else _).
  assert (G4 : m_gen m4 = false) by (unfold m4; destruct mo, so; cbn; repeat match goal with |- context [if ?b then _ else _] => destruct b end; cbn; auto).
  clearbody m4. destruct mo as [b|]; [|apply cinv_nil; auto].
  unfold monitor. cbn [set_cache m_stats m_gen m_on m_level]. rewrite G4, andb_false_r. destruct (m_stats m4) eqn:S.
  - apply cinv_nil. destruct (m_on m4 && m_level m4); auto. pose proof (add_now_cache v (set_cache [] m4) G4) as E. cbn [set_cache m_stats m_cache] in E. rewrite S in E. destruct (tally_add_now v (set_cache [] m4)) as [m1 [u|e]]; auto.
  - cbn [set_on set_cache m_level]. destruct (m_level m4); [|apply cinv_nil; auto]. destruct b.
    + apply cinv_nil. rewrite tally_cache by auto. cbn [set_on set_cache m_stats]. rewrite S. auto.
    + apply cinv_nil. unfold tally_off. cbn [set_on set_cache m_gen m_e]. rewrite G4. destruct (m_e m4); auto.
Qed.
Theorem traced_cinv : forall v m h, traced v m h -> Cinv v m.
Proof.
  assert (ST : forall v m h o v' m' u, Minv v m h -> Cinv v m -> op_ok o m -> mexec o (v, m) = ((v', m'), u) -> Cinv v' m').
  { intros v m h o v' m' u I C OK E. pose proof (mi_gen _ _ _ I) as G. destruct o; cbn [mexec] in E.
    - destruct (tally x w v m) as [m1 u1] eqn:T. injection E as <- <- <-. apply cinv_nil. pose proof (tally_cache v m x w G) as X. rewrite T in X. cbn [fst] in X. destruct (m_stats m) eqn:S; auto. rewrite X. apply (proj1 C). auto.
    - pose proof (monitor_cinv v m h b I C) as X. destruct (monitor (Some b) v m) as [m1 u1]. injection E as <- <- <-. auto.
    - pose proof (reset_cinv v m mo so G) as X. destruct (reset mo so v m) as [m1 u1]. injection E as <- <- <-. auto.
    - injection E as <- <- <-. eapply cinv_tick; eauto. cbn [v_now]. cbn [op_ok] in OK. lra.
    - injection E as <- <- <-. eapply cinv_tick; eauto. apply Qle_refl.
    - destruct (m_stats m) eqn:S; injection E as <- <- <-; auto. destruct (xweight ex0 force v m) as [m1 r] eqn:X. eapply xweight_cinv; eauto.
    - destruct (m_stats m) eqn:S, (m_level m) eqn:L; cbn [andb] in E; try (injection E as <- <- <-; auto; fail). pose proof (add_now_cache v m G) as X. destruct (tally_add_now v m) as [m1 u1]. injection E as <- <- <-. apply cinv_nil. cbn [fst] in X. rewrite S in X. rewrite X. apply (proj1 C). auto. }
  intros v m h T. induction T as [level ty stats on init v m E OK|v m h o v' m' T IH OK E|v m h o v' m' e T IH OK E].
  - unfold create in E. match type of E with reset ?a ?b v ?m0 = _ => pose proof (reset_cinv v m0 a b eq_refl) as X end. rewrite E in X. auto.
  - eapply ST; eauto using traced_inv.
  - eapply ST; eauto using traced_inv.
Qed.

(** *** what the statistics see *)
Lemma val_num : forall ty x, fits ty x = true -> (x = NegInf -> False) -> cvt ty true x = Num (number x).
Proof. intros [| |lo hi o] [q| |i [q|]] F N; cbn in *; auto; try congruence; tauto. Qed.
Lemma keep_num : forall ex0 x, keep ex0 (Num (number x)) = negb (ex0 && zero x).
Proof. intros ex0 x. unfold keep, zero. cbn [veqb]. destruct ex0; auto. Qed.
Lemma gsum_ext : forall off f g l, (forall x w, In (x, w) l -> veqb x off = false -> f x == g x) -> gsum off f l == gsum off g l.
Proof.
  intros off f g l. unfold gsum. induction l as [|[x w] r IH]; intro E; cbn [filter fst]; [reflexivity|]. assert (IH' := IH (fun y u Y => E y u (or_intror Y))). destruct (veqb x off) eqn:O; cbn [negb total_of]; auto. rewrite IH', (E x w (or_introl eq_refl) O). reflexivity.
Qed.
Lemma durs_in : forall x w e l, In (x, w) (durs e l) -> exists t, In (t, x) l.
Proof. intros x w e l. revert e. induction l as [|[t y] r IH]; intros e; cbn [durs]; [intros []|]. intros [E|I]; [injection E as <- <-; exists t; left; auto|]. destruct (IH t I) as (s & S). exists s. right. auto. Qed.
Lemma level_vals : forall v m h x w e, Lev v m h -> In (x, w) (durs e (m_e m)) -> veqb x (m_off m) = false -> fits (m_type m) x = true /\ cvt (m_type m) true x = Num (number x).
Proof.
  intros v m h x w e L I O. destruct (durs_in _ _ _ _ I) as (t & T). destruct (lv_vals _ _ _ L t x T) as [->|[F _]]; [rewrite veqb_refl in O; discriminate|]. split; auto. apply val_num; auto. intros ->. unfold m_off in O. destruct (m_type m); cbn in F, O; discriminate.
Qed.
Lemma stat_xw_level : forall v m h ex0 m' r, traced v m h -> m_stats m = false -> m_level m = true -> xweight ex0 true v m = (m', r) ->
  even r /\ forall g, total_of (fun x => g (numq x)) (pairs r) == area true ex0 g h (v_now v).
Proof.
  intros v m h ex0 m' r T S L E. pose proof (traced_inv _ _ _ T) as I. destruct (xweight_cinv v m h ex0 true m' r I (traced_cinv _ _ _ T) S E) as (_ & (G1 & G2 & _) & _). split; auto.
  intro g. rewrite (G2 _). cbn [fst snd]. rewrite xw_total by auto. pose proof (mi_lev _ _ _ I S L) as LEV. unfold area. rewrite <- (lv_int _ _ _ LEV). apply gsum_ext. intros x w X O. destruct (level_vals _ _ _ _ _ _ LEV X O) as [F C]. rewrite C, keep_num. cbn [numq]. destruct (ex0 && zero x); reflexivity.
Qed.
Lemma stat_xv_level : forall v m h m' r, traced v m h -> m_stats m = false -> m_level m = true -> xweight false false v m = (m', r) ->
  even r /\ forall g, total_of g (pairs r) == integral g h (v_now v).
Proof.
  intros v m h m' r T S L E. pose proof (traced_inv _ _ _ T) as I. destruct (xweight_cinv v m h false false m' r I (traced_cinv _ _ _ T) S E) as (_ & (G1 & G2 & _) & _). split; auto.
  intro g. rewrite (G2 _). cbn [fst snd]. rewrite xw_total by auto. pose proof (mi_lev _ _ _ I S L) as LEV. rewrite <- (lv_int _ _ _ LEV). apply gsum_ext. intros x w X O. unfold cvt. rewrite andb_false_r. reflexivity.
Qed.
(** not a level monitor *)
Definition both (l : list (val * Q)) : xw := (map fst l, map snd l).
Lemma both_pairs : forall l, pairs (both l) = l.
Proof. intro l. unfold pairs, both. apply combine_split_eq. Qed.
Lemma repeat_map : forall A B (l : list A) (x : B), repeat x (length l) = map (fun _ => x) l.
Proof. induction l as [|a l IH]; intro x; cbn; auto. rewrite IH. auto. Qed.
Lemma F2_map : forall A (f g : A -> Q) l, (forall a, In a l -> f a == g a) -> Forall2 Qeq (map f l) (map g l).
Proof. induction l as [|a r IH]; intro E; cbn; constructor; [apply E; left; auto|apply IH; intros; apply E; right; auto]. Qed.
Lemma weights_plain : forall ws (l : list (Q * val * Q)), weights_ok ws l -> forall n, n = length l -> Forall2 Qeq (match ws with WList u => u | _ => repeat 1 n end) (map snd l).
Proof.
  intros [| |u] l W n ->; cbn in W.
  - rewrite repeat_map. apply F2_map. intros a A. rewrite Forall_forall in W. symmetry. auto.
  - tauto.
  - induction W; cbn; constructor; auto.
Qed.
Lemma filter_length_le : forall A (f : A -> bool) l, (length (filter f l) <= length l)%nat.
Proof. induction l as [|a r IH]; cbn; auto. destruct (f a); cbn; lia. Qed.
Lemma F2_filter_const : forall (f : val -> bool) x (l : list (val * Q)), map fst l = x -> (forall p, In p l -> snd p == 1) -> Forall2 Qeq (repeat 1 (length (filter f x))) (map snd (filter (fun p => f (fst p)) l)).
Proof.
  intros f x l <-. induction l as [|[y w] r IH]; intro W; cbn [map fst filter]; [constructor|]. assert (IH' := IH (fun p P => W p (or_intror P))). destruct (f y); cbn [length repeat map snd]; auto. constructor; auto. symmetry. apply (W (y, w)). left. auto.
Qed.
Lemma combine_map_fst : forall (x : list val) (w : list Q), length x = length w -> map fst (combine x w) = x /\ map snd (combine x w) = w.
Proof. induction x as [|a x IH]; intros [|b w] E; cbn in *; try discriminate; auto. injection E as E. destruct (IH w E) as [-> ->]. auto. Qed.
Lemma map_filter_fst : forall (f : val -> bool) (l : list (val * Q)), map fst (filter (fun p => f (fst p)) l) = filter f (map fst l).
Proof. induction l as [|[x w] r IH]; cbn [map fst filter]; auto. destruct (f x); cbn [map fst]; congruence. Qed.
Lemma xw_pla : forall v m h ex0 force, Pla m h -> m_level m = false ->
  weq (xweight0 ex0 force v m) (both (filter (fun p => keep ex0 (fst p)) (map (fun p => (cvt (m_type m) force (fst p), snd p)) (recorded h)))).
Proof.
  intros v m h ex0 force [PE PW PV] L. unfold xweight0. rewrite L. set (l := map (fun p => (cvt (m_type m) force (fst p), snd p)) (recorded h)).
  assert (X : map (fun p : Q * val => if ty_any (m_type m) && force then numeric (snd p) else snd p) (rev (m_e m)) = map fst l).
  { unfold l, recorded. rewrite PE, <- map_rev, !map_map. apply map_ext. intros [[t x] w]. reflexivity. }
  assert (SN : map snd l = rev (map snd (seen h))) by (unfold l, recorded; rewrite !map_map, <- map_rev; cbn [snd]; auto).
  rewrite X. change (fun x => negb ex0 || negb (veqb x (Num 0))) with (keep ex0). clear X.
  destruct (m_w m) as [| |w] eqn:W.
  - split; cbn [both fst snd]; [symmetry; apply map_filter_fst|]. apply F2_filter_const; auto. intros p P. cbn in PW. rewrite Forall_forall in PW. unfold l, recorded in P. rewrite map_map in P. apply in_map_iff in P. destruct P as (q & <- & Q). apply PW. apply in_rev in Q. auto.
  - cbn in PW. tauto.
  - assert (LW : length w = length (seen h)) by (cbn in PW; eapply F2_length; eauto). assert (LX : length (map fst l) = length (rev w)) by (rewrite map_length, rev_length, LW; unfold l, recorded; rewrite !map_length, rev_length; auto).
    assert (FW : Forall2 Qeq (rev w) (map snd l)) by (rewrite SN; apply F2_rev; apply (weights_plain (WList w) (seen h) PW (length (seen h)) eq_refl)).
    destruct (combine_map_fst _ _ LX) as [C1 C2].
    destruct (filter_pairs_weq (keep ex0) (combine (map fst l) (rev w)) l) as [F1 F2]; [auto|rewrite C2; auto|].
    destruct ex0; split; cbn [both fst snd]; auto.
    + symmetry. apply map_filter_fst.
    + assert (FI : filter (fun p : val * Q => keep false (fst p)) l = l) by (clear; induction l as [|a r IH]; cbn [filter]; auto; rewrite IH; auto). rewrite FI. auto.
    + assert (FI : filter (fun p : val * Q => keep false (fst p)) l = l) by (clear; induction l as [|a r IH]; cbn [filter]; auto; rewrite IH; auto). rewrite FI. auto.
Qed.
Lemma xw_plain : forall v m h ex0 force, Minv v m h -> m_stats m = false -> m_level m = false ->
  weq (xweight0 ex0 force v m) (both (filter (fun p => keep ex0 (fst p)) (map (fun p => (cvt (m_type m) force (fst p), snd p)) (recorded h)))).
Proof. intros v m h ex0 force I S L. apply xw_pla; auto. apply (mi_pla _ _ _ I S L). Qed.
Lemma recorded_pla : forall m h x w, Pla m h -> In (x, w) (recorded h) -> fits (m_type m) x = true /\ cvt (m_type m) true x = Num (number x).
Proof.
  intros m h x w [_ _ PV] R. unfold recorded in R. apply in_map_iff in R. destruct R as ([[t y] u] & E & R). apply in_rev in R. injection E as <- <-. destruct (PV t y u R) as [F N]. split; auto. apply val_num; auto.
Qed.
Lemma recorded_ok : forall v m h x w, Minv v m h -> m_stats m = false -> m_level m = false -> In (x, w) (recorded h) -> fits (m_type m) x = true /\ cvt (m_type m) true x = Num (number x).
Proof. intros v m h x w I S L R. eapply recorded_pla; eauto. apply (mi_pla _ _ _ I S L). Qed.
Lemma xw_pla_data : forall v m h ex0, Pla m h -> m_level m = false -> weq (xweight0 ex0 true v m) (both (map (fun p => (Num (fst p), snd p)) (data ex0 h))).
Proof.
  intros v m h ex0 P L. eapply weq_trans; [eapply xw_pla; eauto|].
  assert (EQ : filter (fun p => keep ex0 (fst p)) (map (fun p : val * Q => (cvt (m_type m) true (fst p), snd p)) (recorded h)) = map (fun p : Q * Q => (Num (fst p), snd p)) (data ex0 h)).
  { unfold data. rewrite map_map. cbn [fst snd]. pose proof (fun x w => recorded_pla m h x w P) as OK. induction (recorded h) as [|[x w] l IH]; auto.
    destruct (OK x w (or_introl eq_refl)) as [_ C]. cbn [map filter fst snd]. rewrite C, keep_num. destruct (negb (ex0 && zero x)); cbn [map fst snd]; rewrite IH; auto; intros y u Y; apply (OK y u); right; auto. }
  rewrite EQ. apply weq_refl.
Qed.
Lemma stat_xw_plain : forall v m h ex0 m' r, traced v m h -> m_stats m = false -> m_level m = false -> xweight ex0 true v m = (m', r) ->
  weq r (both (map (fun p => (Num (fst p), snd p)) (data ex0 h))).
Proof.
  intros v m h ex0 m' r T S L E. pose proof (traced_inv _ _ _ T) as I. destruct (xweight_cinv v m h ex0 true m' r I (traced_cinv _ _ _ T) S E) as (_ & (_ & _ & G3) & _).
  eapply weq_trans; [apply G3; auto|]. cbn [fst snd]. apply xw_pla_data; auto. apply (mi_pla _ _ _ I S L).
Qed.
Lemma stat_xv_plain : forall v m h m' r, traced v m h -> m_stats m = false -> m_level m = false -> xweight false false v m = (m', r) -> weq r (both (recorded h)).
Proof.
  intros v m h m' r T S L E. pose proof (traced_inv _ _ _ T) as I. destruct (xweight_cinv v m h false false m' r I (traced_cinv _ _ _ T) S E) as (_ & (_ & _ & G3) & _).
  eapply weq_trans; [apply G3; auto|]. cbn [fst snd]. eapply weq_trans; [eapply xw_plain; eauto|].
  assert (EQ : filter (fun p => keep false (fst p)) (map (fun p : val * Q => (cvt (m_type m) false (fst p), snd p)) (recorded h)) = recorded h).
  { induction (recorded h) as [|[x w] l IH]; auto. cbn [map filter fst snd]. change (keep false (cvt (m_type m) false x)) with true. cbn iota. rewrite IH. unfold cvt. rewrite andb_false_r. auto. }
  rewrite EQ. apply weq_refl.
Qed.
(** sums over the data *)
Lemma data_total : forall ex0 g h now, total_of g (data ex0 h) == area false ex0 g h now.
Proof.
  intros ex0 g h now. unfold data, area. induction (recorded h) as [|[x w] l IH]; [reflexivity|]. cbn [filter fst]. destruct (ex0 && zero x) eqn:Z; cbn [negb map fst snd total_of]; rewrite Z, <- IH; ring.
Qed.
Lemma stat_xw : forall v m h ex0 m' r, traced v m h -> m_stats m = false -> xweight ex0 true v m = (m', r) ->
  even r /\ forall g, total_of (fun x => g (numq x)) (pairs r) == area (m_level m) ex0 g h (v_now v).
Proof.
  intros v m h ex0 m' r T S E. destruct (m_level m) eqn:L; [eapply stat_xw_level; eauto|].
  pose proof (stat_xw_plain _ _ _ _ _ _ T S L E) as W. split.
  - eapply weq_even; eauto. unfold even, both. cbn. rewrite !map_length. auto.
  - intro g. rewrite (weq_totals _ _ W _), both_pairs. rewrite (total_map _ _ (fun x => g (numq x)) Num). cbn [numq]. rewrite data_total. reflexivity.
Qed.
Lemma sumQ_total : forall (r : xw), even r -> sumQ (snd r) == total_of (fun _ => 1) (pairs r).
Proof.
  intros [x w]. unfold even, pairs. cbn [fst snd]. revert w. induction x as [|a x IH]; intros [|b w] E; cbn in *; try discriminate; [reflexivity|]. injection E as E. rewrite (IH w E). ring.
Qed.
Lemma wsum_total : forall l, wsum l == total_of (fun x => numq x) l.
Proof. induction l as [|[x w] r IH]; cbn; [reflexivity|]. rewrite IH. reflexivity. Qed.
Lemma vsum_total : forall mu l, vsum mu l == total_of (fun x => (numq x - mu) * (numq x - mu)) l.
Proof. induction l as [|[x w] r IH]; cbn; [reflexivity|]. rewrite IH. ring. Qed.
Lemma mean_of_spec : forall r (ar : (Q -> Q) -> Q), even r -> (forall g, total_of (fun x => g (numq x)) (pairs r) == ar g) -> mean_spec ar (mean_of r).
Proof.
  intros [x w] ar E A. unfold mean_of. pose proof (sumQ_total _ E) as W. cbn [snd] in W. pose proof (A (fun _ => 1)) as A1. pose proof (A (fun x => x)) as A2. cbn beta in A1, A2. unfold pairs in *. cbn [fst snd] in *. destruct (Qeq_bool (sumQ w) 0) eqn:Z; cbn [mean_spec].
  - apply Qeqb_true in Z. rewrite <- A1, <- W. auto.
  - apply Qeqb_false in Z. rewrite <- A1, <- A2, <- W, wsum_total. split; auto. field. auto.
Qed.
Lemma var_of_spec : forall r (ar : (Q -> Q) -> Q), even r -> (forall g, total_of (fun x => g (numq x)) (pairs r) == ar g) -> var_spec ar (var_of r).
Proof.
  intros [x w] ar E A. pose proof (mean_of_spec _ _ E A) as M. unfold var_of. pose proof (sumQ_total _ E) as W. cbn [snd] in W. pose proof (A (fun _ => 1)) as A1. cbn beta in A1. unfold pairs in *. cbn [fst snd] in *. destruct (Qeq_bool (sumQ w) 0) eqn:Z; cbn [var_spec].
  - apply Qeqb_true in Z. rewrite <- A1, <- W. auto.
  - apply Qeqb_false in Z. destruct (mean_of (x, w)) as [mu|] eqn:MO.
    + cbn [mean_spec] in M. destruct M as [M1 M2]. cbn [var_spec]. split; auto. intros mu' MU. assert (EM : mu == mu') by (apply (Qmult_inj_r _ _ _ M1); rewrite M2, MU; reflexivity).
      rewrite <- (A (fun x => (x - mu') * (x - mu'))), <- A1, <- W, vsum_total. assert (EX : total_of (fun x => (numq x - mu) * (numq x - mu)) (combine x w) == total_of (fun x => (numq x - mu') * (numq x - mu')) (combine x w)) by (apply total_ext; intro y; rewrite EM; reflexivity). rewrite EX. field. auto.
    + cbn [mean_spec] in M. rewrite <- A1, <- W in M. tauto.
Qed.
