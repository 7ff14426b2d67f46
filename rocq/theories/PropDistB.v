(** Properties C46 (Cdf) and C48 (means and time units) of distributions. *)
From Coq Require Import QArith Qabs Qround Qminmax List Bool ZArith Lia Lqa.
From Verif Require Import Base Util Dist PropUtil PropDist.
Import ListNotations.
Open Scope Q_scope.

(** ** C46: the Cdf *)
(** the last cumulative value *)
Definition topc (l : list (Q * Q)) : Q := snd (last l (0, 0)).
Lemma cdf_finds : forall r i l prev x0 c0 x1 c1, nth_error l i = Some (x0, c0) -> nth_error l (S i) = Some (x1, c1) -> r < c1 -> (forall j y e, (j <= i)%nat -> nth_error l j = Some (y, e) -> e <= r) ->
  cdf_find r prev l = match interpolate1 r (Fin c0) (Fin c1) (Some x0) (Some x1) with Some z => DOk (VNum z) | None => DEr DType end.
Proof.
  intros r. induction i as [|i IH]; intros [|[y e] l] prev x0 c0 x1 c1 N0 N1 R B; try discriminate.
  - cbn in N0. injection N0 as -> ->. destruct l as [|[y e] l]; [discriminate|]. cbn in N1. injection N1 as -> ->. cbn [cdf_find].
    assert (E : Qltb r c0 = false) by (apply Qltb_false_iff; apply (B 0%nat x0 c0); auto). rewrite E. assert (F : Qltb r c1 = true) by (apply Qltb_iff; auto). rewrite F. reflexivity.
  - cbn [cdf_find]. assert (E : Qltb r e = false) by (apply Qltb_false_iff; apply (B 0%nat y e); auto; lia). rewrite E. apply IH; auto. intros j z w J NJ. apply (B (S j) z w); auto. lia.
Qed.
Lemma last_indep : forall A (l : list A) a b, l <> [] -> last l a = last l b.
Proof. induction l as [|x [|y l] IH]; intros a b N; [congruence|reflexivity|]. change (last (y :: l) a = last (y :: l) b). apply IH. discriminate. Qed.
Lemma cdf_loop_ok : forall f l lx lc r t, cdf_loop f lx lc l = DOk (r, t) ->
  r = map (fun '(x, c) => (x * f, c)) l /\ t = snd (last l (0, lc)) /\
  (forall i x c, nth_error l i = Some (x, c) -> lc <= c) /\
  (forall i x c x' c', nth_error l i = Some (x, c) -> nth_error l (S i) = Some (x', c') -> x * f <= x' * f /\ c <= c').
Proof.
  induction l as [|[x c] l IH]; intros lx lc r t H; cbn [cdf_loop] in H.
  - injection H as <- <-. split; [reflexivity|]. split; [reflexivity|]. split; intros i x c; [|intros x' c']; destruct i; discriminate.
  - destruct (match lx with None => false | Some y => Qltb (x * f) y end); [discriminate|]. destruct (Qltb c lc) eqn:LC; [discriminate|]. apply Qltb_false_iff in LC.
    destruct (cdf_loop f (Some (x * f)) c l) as [[r' t']|] eqn:L; [|discriminate]. cbn [dbind] in H. injection H as <- <-.
    assert (HEAD : forall x' c', nth_error l 0 = Some (x', c') -> x * f <= x' * f /\ c <= c').
    { intros x' c' N. destruct l as [|[a b] l0]; [discriminate|]. cbn in N. injection N as -> ->. cbn [cdf_loop] in L. destruct (Qltb (x' * f) (x * f)) eqn:E1; [discriminate|]. destruct (Qltb c' c) eqn:E2; [discriminate|].
      apply Qltb_false_iff in E1, E2. auto. }
    destruct (IH _ _ _ _ L) as (-> & T & A & B). split; [reflexivity|]. split; [rewrite T; destruct l; [reflexivity|change (snd (last (p :: l) (0, c)) = snd (last (p :: l) (0, lc))); f_equal; apply last_indep; discriminate]|]. split.
    + intros [|i] y e N; cbn in N; [injection N as -> ->; auto|]. specialize (A i y e N). lra.
    + intros [|i] y e y' e' N N'; cbn [nth_error] in N, N'; [injection N as -> ->; apply HEAD; auto|]. apply (B i y e y' e'); auto.
Qed.
(** what __init__ has checked: the x-values and the cumulative values do not decrease, the first cumulative value is 0, the last one is greater *)
Theorem C46_checked : forall spec f d, 0 < f -> new_cdf spec f = DOk d ->
  0 < topc spec /\ (exists x c, nth_error spec 0 = Some (x, c) /\ c == 0) /\
  (forall i x c x' c', nth_error spec i = Some (x, c) -> nth_error spec (S i) = Some (x', c') -> x <= x' /\ c <= c').
Proof.
  intros spec f d F H. unfold new_cdf in H. destruct spec as [|[x0 c0] l0]; [discriminate|]. destruct (Qeq_bool c0 0) eqn:C0; [|discriminate]. cbn [negb] in H. apply Qeq_bool_iff in C0.
  destruct (cdf_loop f None 0 ((x0, c0) :: l0)) as [[r t]|] eqn:L; [|discriminate]. cbn [dbind] in H. destruct (Qeq_bool t 0) eqn:T0; [discriminate|]. apply Qeq_bool_neq in T0.
  destruct (cdf_loop_ok _ _ _ _ _ _ L) as (_ & T & A & B). split; [|split].
  - unfold topc. subst t. destruct (@exists_last _ ((x0, c0) :: l0) ltac:(discriminate)) as (l' & [x c] & E). rewrite E in *. rewrite last_last in *. cbn [snd] in *.
    assert (N : nth_error (l' ++ [(x, c)]) (length l') = Some (x, c)) by (rewrite nth_error_app2, Nat.sub_diag; auto). specialize (A _ _ _ N). lra.
  - exists x0, c0. auto.
  - intros i x c x' c' N N'. destruct (B i x c x' c' N N') as (P & P2). split; auto. destruct (Qlt_le_dec x' x) as [X|X]; auto. apply (Qmult_lt_compat_r _ _ f F) in X. lra.
Qed.
(** the object made *)
Lemma new_cdf_ok : forall spec f d, 0 < f -> new_cdf spec f = DOk d -> let l := map (fun '(x, c) => (x * f, c / topc spec)) spec in d = DCdf l (cdf_mean l).
Proof.
  intros spec f d F H. unfold new_cdf in H. destruct spec as [|[x0 c0] l0]; [discriminate|]. destruct (Qeq_bool c0 0) eqn:C0; [|discriminate]. cbn [negb] in H.
  destruct (cdf_loop f None 0 ((x0, c0) :: l0)) as [[r t]|] eqn:L; [|discriminate]. cbn [dbind] in H. destruct (Qeq_bool t 0) eqn:T0; [discriminate|]. injection H as <-.
  destruct (cdf_loop_ok _ _ _ _ _ _ L) as (-> & T & _). unfold topc. subst t. rewrite map_map. cbn zeta.
  assert (X : map (fun x : Q * Q => let '(x1, c) := let '(x1, c) := x in (x1 * f, c) in (x1, c / snd (last ((x0, c0) :: l0) (0, 0)))) ((x0, c0) :: l0)
            = map (fun '(x, c) => (x * f, c / snd (last ((x0, c0) :: l0) (0, 0)))) ((x0, c0) :: l0)) by (apply map_ext; intros [x c]; reflexivity).
  rewrite X. reflexivity.
Qed.
Lemma sorted_steps : forall (g : nat -> Q) n, (forall i, (S i < n)%nat -> g i <= g (S i)) -> forall i j, (i <= j)%nat -> (j < n)%nat -> g i <= g j.
Proof. intros g n H i j. induction j as [|j IH]; intros IJ J; [replace i with 0%nat by lia; lra|]. destruct (Nat.eq_dec i (S j)) as [->|]; [lra|]. specialize (IH ltac:(lia) ltac:(lia)). specialize (H j J). lra. Qed.
(** Between two successive points the sample is on the straight line between them: for a draw r that is, times the last cumulative value, between the two cumulative values *)
Theorem C46_linear : forall St (G : rng St) spec f d s r s1 i x0 c0 x1 c1, 0 < f -> new_cdf spec f = DOk d -> gr_random G s = (r, s1) ->
  nth_error spec i = Some (x0, c0) -> nth_error spec (S i) = Some (x1, c1) -> c0 <= r * topc spec < c1 ->
  exists z, sample G d s = (DOk (VNum z), s1) /\ z == x0 * f + (x1 * f - x0 * f) * (r * topc spec - c0) / (c1 - c0).
Proof.
  intros St G spec f d s r s1 i x0 c0 x1 c1 F H R N0 N1 [A B]. destruct (C46_checked spec f d F H) as (TP & _ & INC). rewrite (new_cdf_ok spec f d F H). cbn [sample]. rewrite R.
  set (t := topc spec) in *. clearbody t.
  assert (C : c0 / t < c1 / t). { apply Qlt_shift_div_l; auto. assert (E : c0 / t * t == c0) by (field; lra). rewrite E. lra. }
  assert (R0 : c0 / t <= r) by (apply Qle_shift_div_r; auto). assert (R1 : r < c1 / t) by (apply Qlt_shift_div_l; auto).
  rewrite (cdf_finds r i _ None (x0 * f) (c0 / t) (x1 * f) (c1 / t)).
  - pose proof (C54_linear (c0 / t) (c1 / t) (x0 * f) (x1 * f) r C ltac:(lra)) as L. destruct (interpolate1 r (Fin (c0 / t)) (Fin (c1 / t)) (Some (x0 * f)) (Some (x1 * f))) as [z|]; [|contradiction].
    exists z. split; auto. cbn in L. rewrite L. unfold line. field. lra.
  - rewrite nth_error_map, N0. reflexivity.
  - rewrite nth_error_map, N1. reflexivity.
  - auto.
  - intros j y e J NJ. rewrite nth_error_map in NJ. destruct (nth_error spec j) as [[y' e']|] eqn:NJ'; [|discriminate]. injection NJ as <- <-.
    assert (LE : e' <= c0).
    { pose proof (sorted_steps (fun k => snd (nth k spec (0, 0))) (length spec)) as SS. assert (I : (i < length spec)%nat) by (apply nth_error_Some; congruence).
      specialize (SS ltac:(intros k K; destruct (nth_error spec k) as [[a b]|] eqn:E1; [|apply nth_error_None in E1; lia]; destruct (nth_error spec (S k)) as [[a' b']|] eqn:E2; [|apply nth_error_None in E2; lia];
         rewrite (nth_error_nth _ _ _ E1), (nth_error_nth _ _ _ E2); apply (INC k a b a' b' E1 E2)) j i J I). cbn beta in SS.
      rewrite (nth_error_nth _ _ _ NJ'), (nth_error_nth _ _ _ N0) in SS. auto. }
    apply Qle_trans with (c0 / t); auto. apply Qle_shift_div_l; auto. assert (E : e' / t * t == e') by (field; lra). rewrite E. auto.
Qed.
(** every draw is between two successive points *)
Lemma cdf_part : forall spec z, (exists x c, nth_error spec 0 = Some (x, c) /\ c <= z) -> z < topc spec -> exists i x0 c0 x1 c1, nth_error spec i = Some (x0, c0) /\ nth_error spec (S i) = Some (x1, c1) /\ c0 <= z < c1.
Proof.
  induction spec as [|[x c] l IH]; intros z (y & e & N & C) T; [discriminate|]. cbn in N. injection N as <- <-. destruct l as [|[x' c'] l].
  - unfold topc in T. cbn in T. lra.
  - destruct (Qlt_le_dec z c') as [L|L].
    + exists 0%nat, x, c, x', c'. auto.
    + destruct (IH z) as (i & a0 & b0 & a1 & b1 & N0 & N1 & B); [exists x', c'; auto|unfold topc in *; auto|]. exists (S i), a0, b0, a1, b1. auto.
Qed.
Lemma on_line : forall x0 x1 c0 c1 y, x0 <= x1 -> c0 <= y -> y < c1 -> 0 <= (x1 - x0) * (y - c0) / (c1 - c0) <= x1 - x0.
Proof.
  intros x0 x1 c0 c1 y X A B. split.
  - apply Qle_shift_div_l; [lra|]. assert (0 <= (x1 - x0) * (y - c0)) by (apply Qmult_le_0_compat; lra). lra.
  - apply Qle_shift_div_r; [lra|]. assert (0 <= (x1 - x0) * (c1 - y)) by (apply Qmult_le_0_compat; lra). lra.
Qed.
Lemma on_line_pos : forall x0 x1 c0 c1 y, x0 < x1 -> c0 < y -> y < c1 -> 0 < (x1 - x0) * (y - c0) / (c1 - c0).
Proof. intros. apply Qlt_shift_div_l; [lra|]. assert (0 < (x1 - x0) * (y - c0)) by (apply Qmult_lt_0_compat; lra). lra. Qed.
(** In the part of the draws below the cumulative value of a point the sample is at most its x-value, in the other part at least: the fraction of the draws for which the sample is
    less than x is at most, and the fraction for which it is at most x is at least the specified cumulative value (over the last one). *)
Theorem C46_fraction : forall St (G : rng St) spec f d s r s1 i x c, 0 < f -> new_cdf spec f = DOk d -> gr_random G s = (r, s1) -> 0 <= r -> r < 1 -> nth_error spec i = Some (x, c) ->
  exists z, sample G d s = (DOk (VNum z), s1) /\ (r * topc spec < c -> z <= x * f) /\ (c <= r * topc spec -> x * f <= z).
Proof.
  intros St G spec f d s r s1 i x c F H R R0 R1 N. destruct (C46_checked spec f d F H) as (TP & FST & INC).
  assert (Z0 : 0 <= r * topc spec) by (apply Qmult_le_0_compat; lra). assert (Z1 : 0 < (1 - r) * topc spec) by (apply Qmult_lt_0_compat; lra).
  destruct (cdf_part spec (r * topc spec)) as (k & x0 & c0 & x1 & c1 & N0 & N1 & B); [destruct FST as (x' & c' & FST & E); exists x', c'; split; auto; lra|lra|].
  destruct (C46_linear St G spec f d s r s1 k x0 c0 x1 c1 F H R N0 N1 B) as (z & SA & E). exists z. split; auto.
  assert (XS : forall i j a b a' b', (i <= j)%nat -> nth_error spec i = Some (a, b) -> nth_error spec j = Some (a', b') -> a <= a' /\ b <= b').
  { intros i' j a b a' b' IJ NI NJ. assert (J : (j < length spec)%nat) by (apply nth_error_Some; congruence). split.
    - pose proof (sorted_steps (fun k => fst (nth k spec (0, 0))) (length spec)) as SS.
      specialize (SS ltac:(intros k' K; destruct (nth_error spec k') as [[p q]|] eqn:E1; [|apply nth_error_None in E1; lia]; destruct (nth_error spec (S k')) as [[p' q']|] eqn:E2; [|apply nth_error_None in E2; lia];
         rewrite (nth_error_nth _ _ _ E1), (nth_error_nth _ _ _ E2); apply (INC k' p q p' q' E1 E2)) i' j IJ J). cbn beta in SS. rewrite (nth_error_nth _ _ _ NI), (nth_error_nth _ _ _ NJ) in SS. auto.
    - pose proof (sorted_steps (fun k => snd (nth k spec (0, 0))) (length spec)) as SS.
      specialize (SS ltac:(intros k' K; destruct (nth_error spec k') as [[p q]|] eqn:E1; [|apply nth_error_None in E1; lia]; destruct (nth_error spec (S k')) as [[p' q']|] eqn:E2; [|apply nth_error_None in E2; lia];
         rewrite (nth_error_nth _ _ _ E1), (nth_error_nth _ _ _ E2); apply (INC k' p q p' q' E1 E2)) i' j IJ J). cbn beta in SS. rewrite (nth_error_nth _ _ _ NI), (nth_error_nth _ _ _ NJ) in SS. auto. }
  destruct (INC k x0 c0 x1 c1 N0 N1) as (X01 & _). assert (X01f : x0 * f <= x1 * f) by (apply Qmult_le_compat_r; lra). pose proof (on_line (x0 * f) (x1 * f) c0 c1 (r * topc spec) X01f ltac:(lra) ltac:(lra)) as OL.
  split; intro C.
  - destruct (le_lt_dec (S k) i) as [K|K]; [|destruct (XS i k x c x0 c0 ltac:(lia) N N0); lra]. destruct (XS (S k) i x1 c1 x c K N1 N) as (X & _). apply (Qmult_le_compat_r _ _ f) in X; lra.
  - destruct (le_lt_dec i k) as [K|K]; [|destruct (XS (S k) i x1 c1 x c ltac:(lia) N1 N); lra]. destruct (XS i k x c x0 c0 K N N0) as (X & _). apply (Qmult_le_compat_r _ _ f) in X; lra.
Qed.
(** If the next point has a greater x-value and a greater cumulative value, the sample is at most the x-value for exactly that fraction of the draws. *)
Theorem C46_exact : forall St (G : rng St) spec f d s r s1 i x c x' c', 0 < f -> new_cdf spec f = DOk d -> gr_random G s = (r, s1) -> 0 <= r -> r < 1 ->
  nth_error spec i = Some (x, c) -> nth_error spec (S i) = Some (x', c') -> x < x' -> c < c' -> exists z, sample G d s = (DOk (VNum z), s1) /\ (z <= x * f <-> r * topc spec <= c).
Proof.
  intros St G spec f d s r s1 i x c x' c' F H R R0 R1 N N' X C. destruct (C46_fraction St G spec f d s r s1 i x c F H R R0 R1 N) as (z & SA & A & B). exists z. split; auto.
  assert (XF : x * f < x' * f) by (apply Qmult_lt_compat_r; auto). split; intro Z.
  - destruct (Qlt_le_dec c (r * topc spec)) as [L|L]; auto. exfalso. destruct (Qlt_le_dec (r * topc spec) c') as [L'|L'].
    + destruct (C46_linear St G spec f d s r s1 i x c x' c' F H R N N' ltac:(lra)) as (z' & SA' & E). rewrite SA in SA'. injection SA' as <-.
      pose proof (on_line_pos (x * f) (x' * f) c c' (r * topc spec) XF L L'). lra.
    + destruct (C46_fraction St G spec f d s r s1 (S i) x' c' F H R R0 R1 N') as (z' & SA' & _ & B'). rewrite SA in SA'. injection SA' as <-. specialize (B' L'). lra.
  - destruct (Qlt_le_dec (r * topc spec) c) as [L|L]; [auto|]. destruct (C46_linear St G spec f d s r s1 i x c x' c' F H R N N' ltac:(lra)) as (z' & SA' & E). rewrite SA in SA'. injection SA' as <-.
    assert (EQ : r * topc spec - c == 0) by lra. rewrite E. rewrite EQ. assert (ZZ : (x' * f - x * f) * 0 / (c' - c) == 0) by (field; lra). lra.
Qed.
(** All samples are between the first and the last x-value. *)
Theorem C46_range : forall St (G : rng St) spec f d s x0 c0 xn cn, rng_ok G -> 0 < f -> new_cdf spec f = DOk d -> nth_error spec 0 = Some (x0, c0) -> nth_error spec (length spec - 1) = Some (xn, cn) ->
  exists z s1, sample G d s = (DOk (VNum z), s1) /\ x0 * f <= z <= xn * f.
Proof.
  intros St G spec f d s x0 c0 xn cn OK F H N0 Nn. pose proof (ok_random G OK s) as R. destruct (gr_random G s) as [r s1] eqn:GR. cbn [fst] in R. destruct R as [R0 R1].
  destruct (C46_checked spec f d F H) as (TP & FST & INC). destruct (C46_fraction St G spec f d s r s1 0 x0 c0 F H GR R0 R1 N0) as (z & SA & _ & B). exists z, s1. split; auto.
  assert (Z0 : 0 <= r * topc spec) by (apply Qmult_le_0_compat; lra). assert (Z1 : 0 < (1 - r) * topc spec) by (apply Qmult_lt_0_compat; lra).
  split; [apply B; destruct FST as (x' & c' & FST & E); rewrite FST in N0; injection N0 as <- <-; lra|].
  destruct (C46_fraction St G spec f d s r s1 (length spec - 1) xn cn F H GR R0 R1 Nn) as (z' & SA' & A & _). rewrite SA in SA'. injection SA' as <-. apply A.
  assert (TE : topc spec = cn).
  { clear - Nn. unfold topc. destruct (@exists_last _ spec) as (l' & [x c] & ->); [intros ->; discriminate|]. rewrite last_last. rewrite app_length in Nn. cbn [length] in Nn. rewrite Nat.add_sub, nth_error_app2, Nat.sub_diag in Nn by lia. cbn in Nn. injection Nn as -> ->. reflexivity. }
  rewrite <- TE in *. lra.
Qed.
(** Case: x from 10 to 20 for the first quarter, then a gap up to 30, then to 50; in another time unit (of 60) *)
Definition case_spec : list (Q * Q) := [(10, 0); (20, 1); (30, 1); (50, 4)].
Example C46_case : exists d, new_cdf case_spec 60 = DOk d /\ topc case_spec = 4 /\ (exists z, sample tape d [1 # 8] = (DOk (VNum z), []) /\ z == 15 * 60) /\ (exists z, sample tape d [5 # 8] = (DOk (VNum z), []) /\ z == 40 * 60) /\
  new_cdf [(10, 0); (5, 1)] 1 = DEr DValue /\ new_cdf [(10, 1); (25, 2)] 1 = DEr DValue /\ new_cdf [(10, 0); (25, 0)] 1 = DEr DValue.
Proof.
  eexists. split; [vm_compute; reflexivity|]. split; [reflexivity|]. split; [eexists; split; [vm_compute; reflexivity|reflexivity]|]. split; [eexists; split; [vm_compute; reflexivity|reflexivity]|]. vm_compute. auto.
Qed.
Print Assumptions C46_checked.
Print Assumptions C46_linear.
Print Assumptions C46_fraction.
Print Assumptions C46_exact.
Print Assumptions C46_range.
