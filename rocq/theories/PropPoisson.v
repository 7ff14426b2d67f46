(** C86: samples of the Poisson distribution have that distribution. *)
From Coq Require Import Reals Lra Lia List.
From Verif Require Import Poisson.
Open Scope R_scope.

(** ** The Poisson distribution *)
Definition prob (mean : R) (k : nat) : R := exp (- mean) * mean ^ k / INR (fact k).
(** the probability of at most k *)
Definition cumulative (mean : R) (k : nat) : R := sum_f_R0 (prob mean) k.
(** the inverse of the cumulative distribution: the smallest k of which the cumulative probability is at least u *)
Definition quantile (mean u : R) (k : nat) : Prop := u <= cumulative mean k /\ forall j, (j < k)%nat -> cumulative mean j < u.

Lemma fact_pos : forall k, 0 < INR (fact k). Proof. intros. apply lt_0_INR, lt_O_fact. Qed.
Lemma prob_pos : forall m k, 0 < m -> 0 < prob m k.
Proof. intros m k M. unfold prob. apply Rdiv_lt_0_compat; [|apply fact_pos]. apply Rmult_lt_0_compat; [apply exp_pos | apply pow_lt; auto]. Qed.
Lemma prob_0 : forall m, prob m 0 = exp (- m). Proof. intros. unfold prob. cbn. field. Qed.
Lemma prob_S : forall m k, prob m (S k) = prob m k * (m / INR (S k)).
Proof.
  intros m k. unfold prob. rewrite fact_simpl, mult_INR. cbn [pow]. field. split; [apply not_0_INR; lia | apply Rgt_not_eq, fact_pos].
Qed.
Lemma cumulative_lt : forall m k j, 0 < m -> (j < k)%nat -> cumulative m j < cumulative m k.
Proof.
  intros m k j M L. induction k as [|k IH]; [lia|]. unfold cumulative. cbn [sum_f_R0]. fold (cumulative m k). pose proof (prob_pos m (S k) M).
  destruct (Nat.eq_dec j k) as [->|]; [fold (cumulative m k); lra|]. assert (X : cumulative m j < cumulative m k) by (apply IH; lia). unfold cumulative in *. lra.
Qed.
(** the probabilities add up to 1 *)
Lemma exp_series : forall m, infinite_sum (fun i => / INR (fact i) * m ^ i) (exp m).
Proof. intros m. unfold exp. destruct (exist_exp m) as (y & H). exact H. Qed.
Theorem C86_total : forall m, infinite_sum (prob m) 1.
Proof.
  intros m e E. assert (P : 0 < exp (- m)) by apply exp_pos. destruct (exp_series m (e / exp (- m))) as (N & H); [apply Rdiv_lt_0_compat; auto|].
  exists N. intros n L. specialize (H n L). unfold R_dist in *.
  assert (X : sum_f_R0 (prob m) n = exp (- m) * sum_f_R0 (fun i => / INR (fact i) * m ^ i) n).
  { rewrite scal_sum. apply sum_eq. intros i _. unfold prob. field. apply Rgt_not_eq, fact_pos. }
  rewrite X. replace 1 with (exp (- m) * exp m) by (rewrite <- exp_plus; replace (- m + m) with 0 by ring; apply exp_0).
  rewrite <- Rmult_minus_distr_l, Rabs_mult, (Rabs_pos_eq (exp (- m))) by lra.
  apply (Rmult_lt_compat_l (exp (- m))) in H; auto. replace (exp (- m) * (e / exp (- m))) with e in H by (field; lra). exact H.
Qed.
Lemma reaches : forall m u, 0 < m -> u < 1 -> exists k, u <= cumulative m k.
Proof.
  intros m u M U. destruct (C86_total m (1 - u)) as (N & H); [lra|]. exists N. specialize (H N (le_n N)). unfold R_dist in H. apply Rabs_def2 in H. unfold cumulative. lra.
Qed.
Lemma first_reach : forall m u k, u <= cumulative m k -> exists j, quantile m u j.
Proof.
  intros m u k. induction k as [k IH] using lt_wf_ind. intros H. destruct k as [|k]; [exists 0%nat; split; [auto | intros; lia]|].
  destruct (Rle_lt_dec u (cumulative m k)) as [L|L]; [apply (IH k); auto|].
  destruct (Rlt_dec 0 m) as [M|M].
  - exists (S k). split; auto. intros j J. destruct (Nat.eq_dec j k) as [->|]; auto. apply Rlt_trans with (cumulative m k); auto. apply cumulative_lt; auto; lia.
  - clear - IH H L. assert (D : (exists j, (j < S k)%nat /\ u <= cumulative m j) \/ forall j, (j < S k)%nat -> cumulative m j < u).
    { clear IH H L. generalize (S k). intros n. induction n as [|n [(j & J & X)|A]]; [right; intros; lia | left; exists j; split; [lia | auto] |].
      destruct (Rle_lt_dec u (cumulative m n)) as [L|L]; [left; exists n; split; [lia | auto] | right; intros j J; destruct (Nat.eq_dec j n) as [->|]; auto; apply A; lia]. }
    destruct D as [(j & J & X)|A]; [apply (IH j); auto | exists (S k); split; auto].
Qed.
Lemma inverse_ok : forall d m u k K n last, 0 < m -> quantile m u K -> (k + d = K)%nat -> (d < n)%nat -> (forall l, last = Some l -> l = cumulative m k) ->
  inverse n m u k (prob m k) (cumulative m k) last = Some (Value K).
Proof.
  induction d as [|d IH]; intros m u k K n last M Q E N L; (destruct n as [|n]; [lia|]); cbn [inverse].
  - assert (k = K) by lia. subst k. destruct Q as (A & _). destruct (Rlt_dec (cumulative m K) u); [lra | reflexivity].
  - destruct Q as (A & B). destruct (Rlt_dec (cumulative m k) u) as [_|X]; [|exfalso; apply X, B; lia].
    cbv zeta. rewrite <- prob_S. change (cumulative m k + prob m (S k)) with (cumulative m (S k)).
    assert (I : inverse n m u (S k) (prob m (S k)) (cumulative m (S k)) (Some (cumulative m (S k))) = Some (Value K)) by (apply IH; auto; [split; auto | lia | lia | intros l H; congruence]).
    destruct last as [l|]; auto. specialize (L l eq_refl). subst l. destruct (Req_EM_T (cumulative m k) (cumulative m (S k))) as [X|_]; auto.
    pose proof (cumulative_lt m (S k) k M ltac:(lia)). lra.
Qed.

(** ** Theorems *)
(** the sample is the inverse of the cumulative distribution at the random number u, and always found; the other method is not needed *)
Theorem C86_inverse : forall m u, 0 < m -> u < 1 -> exists k, quantile m u k /\ exists n0, forall n, (n0 <= n)%nat -> sample n m u = Some (Value k).
Proof.
  intros m u M U. destruct (reaches m u M U) as (k0 & H). destruct (first_reach m u k0 H) as (k & Q). exists k. split; auto. exists (S k). intros n L.
  unfold sample. cbv zeta. pose proof (inverse_ok k m u 0 k n None M Q ltac:(lia) ltac:(lia) ltac:(discriminate)) as I. unfold cumulative in I. cbn [sum_f_R0] in I. rewrite prob_0 in I. exact I.
Qed.
(** k is the sample for the random numbers of an interval with the length of its probability *)
Theorem C86_probability : forall m k n u, 0 < m -> u < 1 -> (k < n)%nat ->
  (sample n m u = Some (Value k) <-> (match k with O => True | S j => cumulative m j < u end) /\ u <= cumulative m k) /\
  prob m k = cumulative m k - match k with O => 0 | S j => cumulative m j end.
Proof.
  intros m k n u M U N. split; [|destruct k; unfold cumulative; cbn [sum_f_R0]; ring].
  assert (QI : quantile m u k <-> (match k with O => True | S j => cumulative m j < u end) /\ u <= cumulative m k).
  { unfold quantile. split; intros (A & B); split; auto; [destruct k; auto|]. intros j J. destruct k as [|k]; [lia|]. destruct (Nat.eq_dec j k) as [->|]; auto.
    apply Rlt_trans with (cumulative m k); auto. apply cumulative_lt; auto; lia. }
  rewrite <- QI. split; intros H.
  - destruct (reaches m u M U) as (k0 & H0). destruct (first_reach m u k0 H0) as (k' & Q).
    assert (S0 : forall n', (k' < n')%nat -> sample n' m u = Some (Value k')).
    { intros n' L. unfold sample. cbv zeta. pose proof (inverse_ok k' m u 0 k' n' None M Q ltac:(lia) ltac:(lia) ltac:(discriminate)) as I. unfold cumulative in I. cbn [sum_f_R0] in I. rewrite prob_0 in I. exact I. }
    assert (MO : forall a b t s l mm uu k1 v, inverse a mm uu k1 t s l = Some v -> (a <= b)%nat -> inverse b mm uu k1 t s l = Some v).
    { induction a as [|a IH]; intros b t s l mm uu k1 v E L; [discriminate E|]. destruct b as [|b]; [lia|]. cbn [inverse] in *. destruct (Rlt_dec s uu); auto. cbv zeta in *.
      destruct l as [l|]; [destruct (Req_EM_T l _); auto|]; apply (IH b); auto; lia. }
    pose proof (MO n (n + S k')%nat _ _ _ _ _ _ _ H ltac:(lia)) as H1. specialize (S0 (n + S k')%nat ltac:(lia)). unfold sample in S0. cbv zeta in S0. rewrite H1 in S0. injection S0 as ->. exact Q.
  - unfold sample. cbv zeta. pose proof (inverse_ok k m u 0 k n None M H ltac:(lia) ltac:(lia) ltac:(discriminate)) as I. unfold cumulative in I. cbn [sum_f_R0] in I. rewrite prob_0 in I. exact I.
Qed.
(** larger random numbers give larger samples *)
Theorem C86_monotone : forall m u v j k, 0 < m -> u <= v -> quantile m u j -> quantile m v k -> (j <= k)%nat.
Proof. intros m u v j k M L (A & B) (C & D). destruct (le_lt_dec j k) as [|X]; auto. specialize (B k X). lra. Qed.
(** when exp(-mean) is too small to be represented (0), the other method is used *)
Theorem C86_underflow : forall n m u, 0 < u -> (2 <= n)%nat -> inverse n m u 0 0 0 None = Some Fallback.
Proof.
  intros n m u U N. destruct n as [|[|n]]; try lia. cbn [inverse]. destruct (Rlt_dec 0 u); [|lra]. cbv zeta. destruct (Rlt_dec _ u) as [_|X]; [|exfalso; apply X; lra].
  destruct (Req_EM_T _ _) as [_|X]; [reflexivity | exfalso; apply X; ring].
Qed.
(** the other method: the number of random numbers of which the product is not yet below exp(-mean) *)
Fixpoint product (r : nat -> R) (k : nat) : R := match k with O => 1 | S k => product r k * r k end.
Lemma product_pos : forall r k, (forall i, 0 < r i) -> 0 < product r k.
Proof. intros r k H. induction k; cbn; [lra | apply Rmult_lt_0_compat; auto]. Qed.
Lemma arrivals_ok : forall n lam r k K, 0 < lam -> (forall i, 0 < r i) -> exp (- lam) <= product r k -> arrivals n lam r k (- ln (product r k) / lam) k = Some K ->
  exp (- lam) <= product r K /\ product r (S K) < exp (- lam).
Proof.
  induction n as [|n IH]; intros lam r k K L P B H; [discriminate H|]. cbn [arrivals] in H. cbv zeta in H.
  assert (E : - ln (product r k) / lam + - ln (r k) / lam = - ln (product r (S k)) / lam) by (cbn [product]; rewrite ln_mult by (auto; apply product_pos; auto); field; lra).
  rewrite E in H. pose proof (product_pos r (S k) P) as PP.
  destruct (Rgt_dec (- ln (product r (S k)) / lam) 1) as [G|G].
  - injection H as <-. split; auto. apply (Rmult_lt_compat_r lam) in G; auto. unfold Rdiv in G. rewrite Rmult_assoc, Rinv_l in G by lra. apply exp_ln in PP. rewrite <- PP. apply exp_increasing. lra.
  - apply (IH lam r (S k)); auto. apply Rnot_gt_le in G. apply (Rmult_le_compat_r lam) in G; [|lra]. unfold Rdiv in G. rewrite Rmult_assoc, Rinv_l in G by lra. rewrite <- (exp_ln (product r (S k))) by auto.
    destruct (Rle_lt_or_eq_dec (- lam) (ln (product r (S k)))) as [X|X]; [lra | left; apply exp_increasing; auto | right; congruence].
Qed.
Theorem C86_fallback : forall n lam r k, 0 < lam -> (forall i, 0 < r i < 1) -> sample_fallback n lam r = Some k -> exp (- lam) <= product r k /\ product r (S k) < exp (- lam).
Proof.
  intros n lam r k L P H. unfold sample_fallback in H. apply (arrivals_ok n lam r 0 k); auto; [intros i; apply P | cbn; rewrite <- exp_0; left; apply exp_increasing; lra |].
  cbn [product]. rewrite ln_1. replace (- 0 / lam) with 0 by (field; lra). exact H.
Qed.
(** and it is unique: products decrease *)
Theorem C86_fallback_unique : forall lam r j k, (forall i, 0 < r i < 1) -> exp (- lam) <= product r j -> product r (S j) < exp (- lam) -> exp (- lam) <= product r k -> product r (S k) < exp (- lam) -> j = k.
Proof.
  intros lam r. assert (D : forall a b, (forall i, 0 < r i < 1) -> (a <= b)%nat -> product r b <= product r a).
  { intros a b P L. induction L as [|b L IH]; [lra|]. cbn [product]. assert (X : 0 < product r b) by (apply product_pos; intros; apply P). specialize (P b). nra. }
  intros j k P A B C E. destruct (Nat.lt_trichotomy j k) as [L|[->|L]]; auto; [pose proof (D (S j) k P L) | pose proof (D (S k) j P L)]; lra.
Qed.
(** mean() is the expected value of the samples *)
Theorem C86_mean : forall m, 0 < m -> infinite_sum (fun k => INR k * prob m k) m.
Proof.
  intros m M. assert (S1 : forall n, sum_f_R0 (fun k => INR k * prob m k) (S n) = m * cumulative m n).
  { intros n. unfold cumulative. induction n as [|n IH].
    - cbn [sum_f_R0]. rewrite prob_S. cbn [INR]. field.
    - rewrite tech5, IH, (tech5 (prob m)), (prob_S m (S n)). field. apply not_0_INR. lia. }
  intros e E. destruct (C86_total m (e / m)) as (N & H); [apply Rdiv_lt_0_compat; auto|]. exists (S N). intros n L. destruct n as [|n]; [lia|]. rewrite S1. specialize (H n ltac:(lia)). unfold R_dist in *.
  replace (m * cumulative m n - m) with (m * (sum_f_R0 (prob m) n - 1)) by (unfold cumulative; ring). rewrite Rabs_mult, (Rabs_pos_eq m) by lra.
  apply (Rmult_lt_compat_l m) in H; auto. replace (m * (e / m)) with e in H by (field; lra). exact H.
Qed.
(** mean 1, u = 0.5: the sample is 1, as exp(-1) < 0.5 <= 2 exp(-1) *)
Example C86_case : quantile 1 (/ 2) 1 /\ sample 2 1 (/ 2) = Some (Value 1).
Proof.
  assert (E : 2 < exp 1 <= 3).
  { split; [|apply exp_le_3]. pose proof (exp_ineq1 1 ltac:(lra)). lra. }
  assert (I : exp (- (1)) * exp 1 = 1) by (rewrite <- exp_plus; replace (- (1) + 1) with 0 by ring; apply exp_0).
  assert (P : 0 < exp (- (1))) by apply exp_pos. set (x := exp (- (1))) in *.
  assert (A : / 3 <= x) by nra. assert (B : x < / 2) by nra.
  assert (C0 : cumulative 1 0 = x) by (unfold cumulative, prob; cbn [sum_f_R0 fact pow INR]; fold x; field).
  assert (C1 : cumulative 1 1 = x + x) by (unfold cumulative, prob; cbn [sum_f_R0 fact pow Nat.mul Nat.add INR]; fold x; field).
  split.
  - split; [rewrite C1; lra|]. intros j J. assert (j = 0%nat) by lia. subst j. rewrite C0. lra.
  - apply C86_probability; [lra | lra | lia | rewrite C0, C1; lra].
Qed.
(** mean 1 with all random numbers 0.5: 0.5 >= exp(-1) > 0.25 *)
Example C86_case2 : sample_fallback 2 1 (fun _ => / 2) = Some 1%nat.
Proof.
  assert (E : 2 < exp 1 <= 3).
  { split; [|apply exp_le_3]. pose proof (exp_ineq1 1 ltac:(lra)). lra. }
  assert (A : ln 2 < 1) by (rewrite <- (ln_exp 1); apply ln_increasing; lra).
  assert (B : 1 < ln 2 + ln 2) by (rewrite <- ln_mult, <- (ln_exp 1) by lra; rewrite ln_exp, <- (ln_exp 1) at 1; apply ln_increasing; [apply exp_pos | lra]).
  unfold sample_fallback. cbn [arrivals]. cbv zeta. rewrite ln_Rinv by lra.
  destruct (Rgt_dec _ 1) as [X|_]; [exfalso; lra|]. destruct (Rgt_dec _ 1) as [_|X]; [reflexivity | exfalso; apply X; lra].
Qed.
Print Assumptions C86_inverse.
Print Assumptions C86_probability.
Print Assumptions C86_fallback.
Print Assumptions C86_mean.
