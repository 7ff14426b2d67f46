(** Tables of monitors: C69 (xt, tx, resampled data) *)
From Coq Require Import QArith Qround Lqa List Bool Arith ZArith Lia.
From Verif Require Import Base Util PropUtil Mon MonSpec MonP MonQ MonR PropMon MonT.
Import ListNotations.
Open Scope Q_scope.

(** ** Specification *)
(** what a table of values with their times says about the level at t: the last value of which the time is not after t *)
Definition reads (d : val) (l : list (val * Q)) (t : Q) : val := fold_left (fun cur p => if Qle_bool (snd p) t then fst p else cur) l d.
(** times go up *)
Fixpoint climbing (l : list (val * Q)) : Prop := match l with [] => True | (_, s) :: r => (forall y u, In (y, u) r -> s <= u) /\ climbing r end.

Lemma reads_app : forall d a b t, reads d (a ++ b) t = reads (reads d a t) b t.
Proof. intros. apply fold_left_app. Qed.
Lemma reads_look : forall d l now t, decr now l -> reads d (map (fun p => (snd p, fst p)) (rev l)) t = look d l t.
Proof.
  intros d. induction l as [|[s x] r IH]; intros now t D; [reflexivity|]. destruct D as (A & B & C). cbn [rev look]. rewrite map_app, reads_app, (IH s) by auto. cbn. destruct (Qle_bool s t); auto.
Qed.
Lemma climbing_app : forall a b, climbing a -> climbing b -> (forall x s y u, In (x, s) a -> In (y, u) b -> s <= u) -> climbing (a ++ b).
Proof.
  induction a as [|[x s] a IH]; intros b A B X; auto. destruct A as (A1 & A2). cbn [app climbing]. split.
  - intros y u I. apply in_app_or in I. destruct I as [I|I]; [eapply A1; eauto|]. eapply X; [left; reflexivity | eauto].
  - apply IH; auto. intros x' s' y u I J. eapply X; [right; eauto | eauto].
Qed.
Lemma climbing_entries : forall l now, decr now l -> climbing (map (fun p => (snd p, fst p)) (rev l)).
Proof.
  induction l as [|[s x] r IH]; intros now D; [exact Logic.I|]. destruct D as (A & B & C). cbn [rev]. rewrite map_app. apply climbing_app; [eapply IH; eauto | cbn; split; auto; intros y u [] |].
  intros y u z w I [J|[]]. injection J as <- <-. apply in_map_iff in I. destruct I as ((p & q) & E & I). cbn in E. injection E as <- <-. apply in_rev in I. eapply decr_all; eauto.
Qed.
Lemma xt_plain : forall b v m h, Minv v m h -> m_stats m = false -> m_level m = true -> exists s x r, m_e m = (s, x) :: r /\
  xt false false false b v m = Mok (map (fun p => (snd p, fst p)) (rev (m_e m)) ++ if b then [(x, v_now v)] else []).
Proof.
  intros b v m h I S L. destruct (lv_head _ _ _ (mi_lev _ _ _ I S L)) as (s & r & E). exists s, (if m_on m then m_tally m else m_off m), r. split; auto.
  unfold xt. rewrite S, L, !andb_false_r, andb_true_r, E. cbn [negb orb andb]. assert (F : forall l : list (val * Q), filter (fun _ => true) l = l) by (induction l; cbn; congruence). destruct b; rewrite F; auto.
Qed.

(** ** C69 *)
(** Level monitors: the table begins at the start, ends (with add_now) at the present, times go up, and it tells the level at any time, the off value when the
    monitor was off or before its start. *)
Theorem C69_level : forall add_now v m h, traced v m h -> m_stats m = false -> m_level m = true ->
  exists l, xt false false false add_now v m = Mok l /\ climbing l /\ (exists x s r, l = (x, s) :: r /\ s == start_of h) /\ (forall x s, In (x, s) l -> s <= v_now v) /\
    (add_now = true -> exists k x, l = k ++ [(x, v_now v)]) /\ forall t, reads (m_off m) l t = match level_at h t with Some x => x | None => m_off m end.
Proof.
  intros b v m h T S L. pose proof (traced_inv _ _ _ T) as I. destruct (xt_plain b v m h I S L) as (s & x & r & E & X). pose proof (mi_lev _ _ _ I S L) as V. pose proof (lv_decr _ _ _ V) as D.
  eexists. split; [exact X|].
  assert (LE : forall y u, In (y, u) (map (fun p : Q * val => (snd p, fst p)) (rev (m_e m))) -> u <= v_now v).
  { intros y u J. apply in_map_iff in J. destruct J as ((p & q) & F & J). cbn in F. injection F as <- <-. apply in_rev in J. eapply decr_all; eauto. }
  split; [apply climbing_app; [eapply climbing_entries; eauto | destruct b; cbn; auto; split; auto; intros y u [] |]|].
  { intros y u z w J K. destruct b; [|destruct K]. destruct K as [K|[]]. injection K as <- <-. eapply LE; eauto. }
  split.
  { pose proof (lv_start _ _ _ V) as ST. rewrite (mi_start _ _ _ I) in ST. destruct (rev (m_e m)) as [|[t0 x0] k] eqn:R; [apply (f_equal (@rev _)) in R; rewrite rev_involutive in R; rewrite R in E; discriminate|].
    exists x0, t0. eexists. split; [cbn [map snd fst app]; reflexivity|]. apply (f_equal (@rev _)) in R. rewrite rev_involutive in R. rewrite R in ST. cbn [rev] in ST. rewrite last_last in ST. exact ST. }
  split.
  { intros y u J. apply in_app_or in J. destruct J as [J|J]; [eauto|]. destruct b; [|destruct J]. destruct J as [J|[]]. injection J as _ <-. apply Qle_refl. }
  split; [intros ->; eauto|]. intros t. rewrite reads_app, (reads_look _ _ _ _ D). rewrite (lv_look _ _ _ V) at 1. destruct b; auto. cbn.
  destruct (Qle_bool (v_now v) t) eqn:Q; auto. apply Qle_bool_iff in Q. rewrite <- (lv_look _ _ _ V t), E. cbn [look]. rewrite E in D. destruct D as (D1 & _). assert (Z : Qle_bool s t = true) by (apply Qle_bool_iff; lra). rewrite Z. auto.
Qed.
(** Other monitors: the tallied values with their times, in order; add_now and exoff do not matter. *)
Theorem C69_tallies : forall exoff add_now v m h, traced v m h -> m_stats m = false -> m_level m = false ->
  xt false exoff false add_now v m = Mok (map (fun e => (snd (fst e), fst (fst e))) (rev (seen h))).
Proof.
  intros exoff b v m h T S L. unfold xt. rewrite S, L, !andb_false_r. cbn [negb orb andb]. assert (F : forall l : list (val * Q), filter (fun _ => true) l = l) by (induction l; cbn; congruence). rewrite F, app_nil_r.
  rewrite (C40_times v m h T S L), map_map. reflexivity.
Qed.
(** exoff leaves out the pieces without a level, ex0 those with level 0, and force_numeric turns values into numbers (for type any), before that; the times are kept. *)
Theorem C69_filters : forall ex0 exoff force add_now v m l, xt false false false add_now v m = Mok l ->
  let num := match m_type m with TAny => force | _ => false end in
  xt ex0 exoff force add_now v m = Mok (filter (fun p => negb (ex0 && veqb (fst p) (Num 0)) && negb (exoff && m_level m && veqb (fst p) (m_off m))) (map (fun p => (if num then numeric (fst p) else fst p, snd p)) l)).
Proof.
  intros ex0 exoff force b v m l E num. assert (N : ty_any (m_type m) && force = num) by (unfold num; destruct (m_type m); auto). assert (O : (if num then NegInf else m_off m) = m_off m) by (unfold num, m_off; destruct (m_type m), force; auto).
  unfold xt in *. destruct (m_stats m); [discriminate|]. rewrite N, O. rewrite andb_false_r in E. cbn [andb negb orb] in E. assert (F : forall l : list (val * Q), filter (fun _ => true) l = l) by (induction l0; cbn; congruence).
  assert (G : forall k, filter (fun p : val * Q => (negb ex0 || negb (veqb (fst p) (Num 0))) && (negb (exoff && m_level m) || negb (veqb (fst p) (m_off m)))) k = filter (fun p => negb (ex0 && veqb (fst p) (Num 0)) && negb (exoff && m_level m && veqb (fst p) (m_off m))) k).
  { intros k. apply filter_ext. intros p. destruct ex0, exoff, (m_level m); reflexivity. }
  destruct (b && m_level m); [destruct (m_e m) as [|[s x] r] eqn:ME; [discriminate|]|]; injection E as <-; rewrite G, F; f_equal; f_equal; rewrite map_app, !map_map; reflexivity.
Qed.
(** tx: the same with the times first *)
Theorem C69_tx : forall ex0 exoff force add_now v m l, xt ex0 exoff force add_now v m = Mok l -> tx ex0 exoff force add_now v m = Mok (map (fun p => (snd p, fst p)) l).
Proof. intros. unfold tx. rewrite H. reflexivity. Qed.

(** *** resampled *)
Lemma kind_kept : forall o v m v' m' r, mexec o (v, m) = ((v', m'), r) -> m_type m' = m_type m /\ m_level m' = m_level m.
Proof.
  assert (A : forall x w v m, m_type (fst (tally x w v m)) = m_type m /\ m_level (fst (tally x w v m)) = m_level m).
  { intros x w v m. unfold tally. destruct (m_gen m); auto. destruct (m_stats m) eqn:S.
    - destruct (m_level m && negb (Qeq_bool w 1)) eqn:X; auto. cbv zeta. set (m1 := if m_level m then set_tally _ _ _ else m). assert (E : m_type m1 = m_type m /\ m_level m1 = m_level m) by (unfold m1; destruct (m_level m) eqn:LL, (m_on m); auto). clearbody m1.
      destruct (m_on m && _); auto. destruct (acc_add _ _ _); auto. destruct (Qeq_bool _ 0); auto. destruct (acc_add _ _ _); auto.
    - cbv zeta. cbn [set_cache m_level m_on m_e m_w m_type]. destruct (m_level m) eqn:LL.
      + destruct (negb _); auto. destruct (veqb _ _); auto. cbn [set_tally set_cache m_on m_e m_type]. destruct (m_on m); auto. destruct (m_e m) as [|[s y] r]; auto. destruct (fits _ _); auto.
      + destruct (m_on m); auto. cbn [set_w set_cache m_type]. destruct (fits _ _); auto. }
  assert (B : forall v m, m_type (fst (tally_add_now v m)) = m_type m /\ m_level (fst (tally_add_now v m)) = m_level m).
  { intros v m. unfold tally_add_now. pose proof (A (m_tally m) 1 v m) as E. destruct (tally (m_tally m) 1 v m) as [m1 [u|e]]; auto. }
  assert (O : forall v m, m_type (fst (tally_off v m)) = m_type m /\ m_level (fst (tally_off v m)) = m_level m).
  { intros v m. unfold tally_off. repeat match goal with |- context [match ?x with _ => _ end] => destruct x end; auto. }
  assert (C : forall b v m, m_type (fst (monitor b v m)) = m_type m /\ m_level (fst (monitor b v m)) = m_level m).
  { intros [b|] v m; [|auto]. unfold monitor. destruct (m_stats m).
    - pose proof (B v m) as X. destruct (m_on m && m_level m); [|auto]. destruct (tally_add_now v m) as [m1 [u|e]]; exact X.
    - destruct (b && m_gen m); [auto|]. cbv zeta. change (m_level (set_on b m)) with (m_level m). destruct (m_level m) eqn:LL; [|auto]. destruct b.
      + destruct (A (m_tally (set_on true m)) 1 v (set_on true m)) as (X & Y). split; [exact X | rewrite Y; exact LL].
      + destruct (O v (set_on false m)) as (X & Y). split; [exact X | rewrite Y; exact LL]. }
  intros o v m v' m' r E. destruct o as [x w|b|mo so|dt|off|ex0 force|]; cbn [mexec] in E.
  - pose proof (A x w v m) as X. destruct (tally x w v m) as [m1 r1]. injection E as <- <- <-. exact X.
  - pose proof (C (Some b) v m) as X. destruct (monitor (Some b) v m) as [m1 r1]. injection E as <- <- <-. exact X.
  - assert (X : m_type (fst (reset mo so v m)) = m_type m /\ m_level (fst (reset mo so v m)) = m_level m).
    { unfold reset. destruct (m_gen m); auto. cbv zeta. match goal with |- context [monitor mo v ?n] => pose proof (C mo v n) as X end. destruct X as (X1 & X2). rewrite X1, X2. clear. destruct m as [lev ty stats gen on tl tt0 stt e w ttm a0 a1 c], mo as [mb|], so as [[|]|]; destruct lev, stats; cbn; auto; repeat match goal with |- context [if ?x then _ else _] => destruct x end; auto. }
    destruct (reset mo so v m) as [m1 r1]. injection E as <- <- <-. exact X.
  - injection E as <- <- <-. auto.
  - injection E as <- <- <-. auto.
  - destruct (m_stats m); injection E as <- <- <-; auto. unfold xweight. destruct (cget _ _) as [[t0 r0]|]; [destruct (Qeq_bool _ _)|]; auto.
  - destruct (m_stats m && m_level m); [|injection E as <- <- <-; auto]. pose proof (B v m) as X. destruct (tally_add_now v m) as [m1 r1]. injection E as <- <- <-. exact X.
Qed.
(** a level is never the off value *)
Lemma level_not_off : forall v m h, traced v m h -> m_level m = true -> forall t x, level_at h t = Some x -> veqb x (m_off m) = false.
Proof.
  intros v m h T. induction T as [level ty stats on init v m C OK|v m h o v' m' T IH OK X|v m h o v' m' e T IH OK X]; intros L t x E.
  - assert (T : traced v m [(v_now v, HMade (if level then init else Num 0) on)]) by (eapply tr_new; eauto). pose proof (traced_inv _ _ _ T) as I. destruct (mi_ok _ _ _ I L) as (_ & N). rewrite (mi_val _ _ _ I L) in N.
    cbn [level_at starts] in E. destruct (Qle_bool _ t); [|discriminate]. destruct (on_of _); [|discriminate]. injection E as <-. exact N.
  - assert (T' : traced v' m' (note_op o (v_now v) h)) by (eapply tr_ok; eauto). destruct (kind_kept _ _ _ _ _ _ X) as (K1 & K2). assert (OO : m_off m' = m_off m) by (unfold m_off; congruence). rewrite OO.
    pose proof (traced_inv _ _ _ T') as I. destruct (mi_ok _ _ _ I L) as (_ & N). rewrite (mi_val _ _ _ I L), OO in N. rewrite K2 in L.
    assert (W : forall e, note_op o (v_now v) h = (v_now v, e) :: h -> veqb x (m_off m) = false).
    { intros e F. rewrite F in *. cbn [level_at] in E. destruct (Qle_bool _ t); [destruct (on_of _); [|discriminate]; injection E as <-; exact N|]. destruct (starts e); [discriminate|]. eauto. }
    destruct o; cbn [note_op] in *; eauto.
  - destruct (kind_kept _ _ _ _ _ _ X) as (K1 & K2). unfold m_off in *. rewrite K1. rewrite K2 in L. eauto.
Qed.
Lemma advance_reads : forall t l x, climbing (map (fun p => (snd p, fst p)) l) -> let '(y, k) := advance t x l in
  y = reads x (map (fun p => (snd p, fst p)) l) t /\ climbing (map (fun p => (snd p, fst p)) k) /\ forall u, t <= u -> reads y (map (fun p => (snd p, fst p)) k) u = reads x (map (fun p => (snd p, fst p)) l) u.
Proof.
  intros t l. induction l as [|[s y] r IH]; intros x C; cbn [advance].
  - cbn. auto.
  - destruct (Qle_bool s t) eqn:QQ.
    + destruct C as (C1 & C2). specialize (IH y C2). destruct (advance t y r) as [z k]. destruct IH as (A & B & D). cbn [map fst snd]. unfold reads in *. cbn [fold_left fst snd]. rewrite QQ. split; auto. split; auto.
      intros u U. apply Qle_bool_iff in QQ. assert (Q' : Qle_bool s u = true) by (apply Qle_bool_iff; lra). rewrite Q'. auto.
    + split; [|split; auto]. cbn [map fst snd]. destruct C as (C1 & _). unfold reads. cbn [fold_left fst snd]. rewrite QQ. apply Qle_bool_false_iff in QQ.
      assert (G : forall l' d', (forall y u, In (y, u) l' -> s <= u) -> fold_left (fun cur (p : val * Q) => if Qle_bool (snd p) t then fst p else cur) l' d' = d').
      { induction l' as [|[y' u'] l' IHl]; intros d' H; auto. cbn [fold_left fst snd]. assert (Q1 : Qle_bool u' t = false) by (apply Qle_bool_false_iff; pose proof (H y' u' (or_introl eq_refl)); lra). rewrite Q1. apply IHl. intros; eapply H; right; eauto. }
      rewrite G; auto.
Qed.
Lemma column_reads : forall off ts l x, climbing (map (fun p => (snd p, fst p)) l) -> (forall a b i j, (i <= j)%nat -> nth_error ts i = Some a -> nth_error ts j = Some b -> a <= b) ->
  column off x l ts = map (fun t => let y := reads x (map (fun p => (snd p, fst p)) l) t in if veqb y off then None else Some y) ts.
Proof.
  intros off. induction ts as [|t r IH]; intros l x C O; auto. cbn [column map]. pose proof (advance_reads t l x C) as X. destruct (advance t x l) as [y k]. destruct X as (-> & B & D). cbv zeta. f_equal.
  rewrite IH; auto; [|intros a b i j LE A1 A2; apply (O a b (S i) (S j)); auto; lia]. apply map_ext_in. intros u U. rewrite D; auto. apply In_nth_error in U. destruct U as (j & J). apply (O t u 0%nat (S j)); auto. lia.
Qed.
Lemma first_start : forall v m h, traced v m h -> m_stats m = false -> m_level m = true -> exists s x r, rev (m_e m) = (s, x) :: r /\ s == start_of h.
Proof.
  intros v m h T S L. pose proof (traced_inv _ _ _ T) as I. pose proof (mi_lev _ _ _ I S L) as V. pose proof (lv_start _ _ _ V) as ST. rewrite (mi_start _ _ _ I) in ST. destruct (lv_head _ _ _ V) as (s & r & E).
  destruct (rev (m_e m)) as [|[t0 x0] k] eqn:R; apply (f_equal (@rev _)) in R; rewrite rev_involutive in R; rewrite R in *; [discriminate|]. cbn [rev] in ST. rewrite last_last in ST. eauto.
Qed.
(** Resampled data: a row for every min_t + i * delta_t before max_t, and in the column of each monitor the level of that moment, nothing when that monitor
    was off or before its start. (Monitors that have the same start and the same off value as the first.) *)
Theorem C69_resampled : forall v m h extra hs delta min_t max_t, traced v m h -> m_stats m = false -> m_level m = true -> 0 < delta ->
  Forall2 (fun n k => traced v n k /\ m_stats n = false /\ m_level n = true /\ m_off n = m_off m /\ start_of k == start_of h) extra hs ->
  let a := match min_t with Some t => t + v_off v | None => start_of h end in let b := match max_t with Some t => t + v_off v | None => v_now v end in
  exists fuel ts, resampled fuel extra delta min_t max_t v m = Mok (ts, map (fun k => map (level_at k) ts) (h :: hs)) /\
    (forall i, (i < length ts)%nat -> nth i ts 0 == a + inject_Z (Z.of_nat i) * delta) /\ (forall i, (i < length ts)%nat <-> a + inject_Z (Z.of_nat i) * delta < b).
Proof.
  intros v m h extra hs delta min_t max_t T S L D F a b. destruct (first_start v m h T S L) as (s0 & x0 & r0 & R0 & S0). set (a' := match min_t with Some t => t + v_off v | None => s0 end).
  assert (AA : a' == a) by (unfold a, a'; destruct min_t; [reflexivity | exact S0]). destruct (C55_arange_up a' b delta D) as (fuel & ts & A1 & A2 & A3). exists fuel, ts.
  assert (MONO : forall p q i j, (i <= j)%nat -> nth_error ts i = Some p -> nth_error ts j = Some q -> p <= q).
  { intros p q i j LE P U. assert (I1 : (i < length ts)%nat) by (apply nth_error_Some; congruence). assert (I2 : (j < length ts)%nat) by (apply nth_error_Some; congruence).
    pose proof (A2 i I1) as E1. pose proof (A2 j I2) as E2. rewrite (nth_error_nth ts i 0 P) in E1. rewrite (nth_error_nth ts j 0 U) in E2. rewrite E1, E2.
    assert (X : inject_Z (Z.of_nat i) * delta <= inject_Z (Z.of_nat j) * delta) by (apply Qmult_le_compat_r; [rewrite <- Zle_Qle; lia | lra]). lra. }
  assert (COL : forall n k, traced v n k -> m_stats n = false -> m_level n = true -> m_off n = m_off m -> column (m_off m) (m_off n) (rev (m_e n)) ts = map (level_at k) ts).
  { intros n k TN SN LN ON. pose proof (mi_lev _ _ _ (traced_inv _ _ _ TN) SN LN) as V. rewrite column_reads; auto; [|eapply climbing_entries; apply (lv_decr _ _ _ V)]. apply map_ext. intros t. cbv zeta.
    rewrite (reads_look _ _ _ _ (lv_decr _ _ _ V)), (lv_look _ _ _ V). destruct (level_at k t) as [y|] eqn:LV.
    - rewrite <- ON, (level_not_off _ _ _ TN LN _ _ LV). auto.
    - rewrite ON, veqb_refl. auto. }
  assert (COLS : forall es ks, Forall2 (fun n k => traced v n k /\ m_stats n = false /\ m_level n = true /\ m_off n = m_off m /\ start_of k == start_of h) es ks -> columns m s0 ts es = Mok (map (fun k => map (level_at k) ts) ks)).
  { intros es ks G. induction G as [|n k es ks (B1 & B2 & B3 & B4 & B5) G IH]; auto. cbn [columns map]. rewrite B3, B2. cbn [negb]. destruct (first_start v n k B1 B2 B3) as (s1 & x1 & r1 & R1 & S1).
    assert (Z : Qeq_bool s1 s0 = true) by (apply Qeqb_true; rewrite S1, S0; exact B5). rewrite R1, Z. cbn [negb]. rewrite IH. rewrite <- R1, (COL n k) by auto. auto. }
  split; [|split].
  - unfold resampled. rewrite S, R0. fold b a'. rewrite A1. rewrite (COLS (m :: extra) (h :: hs)); auto. constructor; auto. repeat split; auto.
  - intros i I. rewrite (A2 i I), AA. reflexivity.
  - intros i. rewrite A3, AA. reflexivity.
Qed.
(** Monitors that start at another moment are refused. *)
Theorem C69_other_start : forall fuel v m h n k delta min_t max_t, traced v m h -> m_stats m = false -> m_level m = true -> traced v n k -> m_stats n = false -> m_level n = true -> ~ start_of k == start_of h ->
  forall r, resampled fuel [n] delta min_t max_t v m <> Mok r.
Proof.
  intros fuel v m h n k delta min_t max_t T S L TN SN LN NE r. destruct (first_start v m h T S L) as (s0 & x0 & r0 & R0 & S0). destruct (first_start v n k TN SN LN) as (s1 & x1 & r1 & R1 & S1).
  unfold resampled. rewrite S, R0. destruct (arange _ _ _ _); [|discriminate]. cbn [columns]. rewrite L, S, R0, LN, SN, R1. cbn [negb]. destruct (Qeq_bool s0 s0); cbn [negb]; [|discriminate].
  assert (Z : Qeq_bool s1 s0 = false) by (apply Qeqb_false; rewrite S1, S0; exact NE). rewrite Z. cbn [negb]. discriminate.
Qed.

(** ** Where the code is different *)
(** After reset_now the times in the tables are still those of before, not those of m(t). *)
Definition story_off := story true TAny false true (Num 3) [OTick 2; OTally (Num 5) 1; OTick 1; OResetNow 3; OTick 1; OTally (Num 8) 1; OTick 1].
Theorem C69_reset_now_refuted : exists v m h l t, traced v m h /\ m_stats m = false /\ m_level m = true /\ t < v_now v - v_off v /\ xt false false false true v m = Mok l /\
  call (Some t) v m = Mok (Num 5) /\ reads (m_off m) l t = Num 3.
Proof.
  exists (sv story_off), (sm story_off), (sh story_off). eexists _, (1 # 2). split; [apply story_after; vm_compute; reflexivity|]. split; [vm_compute; reflexivity|]. split; [vm_compute; reflexivity|]. split; [vm_compute; reflexivity|]. split; [vm_compute; reflexivity|]. split; vm_compute; reflexivity.
Qed.
Theorem C69_resampled_reset_now_refuted : exists v m h ts c, traced v m h /\ m_level m = true /\ resampled 10 [] 1 (Some 0) (Some 2) v m = Mok (ts, c) /\ Forall2 Qeq ts [3; 4] /\ c = [[Some (Num 5); Some (Num 8)]] /\ call (Some 0) v m = Mok (Num 5).
Proof.
  exists (sv story_off), (sm story_off), (sh story_off). eexists _, _. split; [apply story_after; vm_compute; reflexivity|]. split; [vm_compute; reflexivity|]. split; [vm_compute; reflexivity|]. split; [repeat constructor; vm_compute; reflexivity|]. split; vm_compute; reflexivity.
Qed.
(** A monitor of another type than the first that is off shows its off value. *)
Definition story_any := story true TAny false true (Num 3) [OTick 3].
Definition story_byte := story true ty_uint8 false true (Num 7) [OTick 1; OMonitor false; OTick 2].
Theorem C69_other_off_refuted : exists v m h n k ts c, traced v m h /\ traced v n k /\ m_level n = true /\ resampled 10 [n] 1 None None v m = Mok (ts, [c; [Some (Num 7); Some (Num 255); Some (Num 255)]]) /\ map (level_at k) ts = [Some (Num 7); None; None].
Proof.
  exists (sv story_any), (sm story_any), (sh story_any), (sm story_byte), (sh story_byte). eexists _, _. split; [apply story_after; vm_compute; reflexivity|]. split.
  - assert (E : sv story_any = sv story_byte) by (vm_compute; reflexivity). rewrite E. apply story_after; vm_compute; reflexivity.
  - split; [vm_compute; reflexivity|]. split; [vm_compute; reflexivity|]. vm_compute. reflexivity.
Qed.
(** ** Concrete cases *)
Example C69_case_level : traced (sv story1) (sm story1) (sh story1) /\ m_stats (sm story1) = false /\ m_level (sm story1) = true /\
  xt false false false true (sv story1) (sm story1) = Mok [(Num 3, 0); (Num 5, 2); (NegInf, 4); (Num 7, 6); (Num 7, 8)] /\ xt false true false true (sv story1) (sm story1) = Mok [(Num 3, 0); (Num 5, 2); (Num 7, 6); (Num 7, 8)].
Proof. split; [apply story_after; vm_compute; reflexivity|]. repeat (split; [vm_compute; reflexivity|]). vm_compute. reflexivity. Qed.
Example C69_case_resampled : traced (sv story1) (sm story1) (sh story1) /\ m_stats (sm story1) = false /\ m_level (sm story1) = true /\
  Forall2 (fun n k => traced (sv story1) n k /\ m_stats n = false /\ m_level n = true /\ m_off n = m_off (sm story1) /\ start_of k == start_of (sh story1)) [sm story1] [sh story1] /\
  exists ts, resampled 20 [sm story1] (3 # 2) (Some (-1)) None (sv story1) (sm story1) = Mok (ts, [[None; Some (Num 3); Some (Num 5); Some (Num 5); None; Some (Num 7)]; [None; Some (Num 3); Some (Num 5); Some (Num 5); None; Some (Num 7)]]).
Proof.
  assert (T : traced (sv story1) (sm story1) (sh story1)) by (apply story_after; vm_compute; reflexivity). split; [exact T|]. split; [vm_compute; reflexivity|]. split; [vm_compute; reflexivity|]. split.
  - constructor; [|constructor]. split; [exact T|]. split; [vm_compute; reflexivity|]. split; [vm_compute; reflexivity|]. split; reflexivity.
  - eexists. vm_compute. reflexivity.
Qed.
Example C69_case_tallies : let s := story5 false in traced (sv s) (sm s) (sh s) /\ m_level (sm s) = false /\ exists l, xt false false false true (sv s) (sm s) = Mok l /\ map fst l = [Num 2; Num 5; Num (1 # 2); Num 0].
Proof. split; [apply story_after; vm_compute; reflexivity|]. split; [vm_compute; reflexivity|]. eexists. split; vm_compute; reflexivity. Qed.
Print Assumptions C69_level.
Print Assumptions C69_resampled.
