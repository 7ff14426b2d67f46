(** Property C48: mean() is the average of the samples over the draws, and samples and means are converted from the time unit. *)
From Coq Require Import QArith Qabs Qround Qminmax List Bool ZArith Lia Lqa.
From Verif Require Import Base Util Dist PropUtil PropDist PropDistB.
Import ListNotations.
Open Scope Q_scope.

(** ** The average of a function of the draw *)
(** A lower sum of g from a to e: the range is cut in parts, in the interior of each of which g is at least lo; the sum of lo times the length of the part. In the same way an upper sum. *)
Inductive lower_sum (g : Q -> Q) (e : Q) : Q -> Q -> Prop :=
| ls_end : forall a t, a == e -> t == 0 -> lower_sum g e a t
| ls_part : forall a b lo s t, a < b -> (forall r, a < r < b -> lo <= g r) -> lower_sum g e b s -> t == lo * (b - a) + s -> lower_sum g e a t.
Inductive upper_sum (g : Q -> Q) (e : Q) : Q -> Q -> Prop :=
| us_end : forall a t, a == e -> t == 0 -> upper_sum g e a t
| us_part : forall a b hi s t, a < b -> (forall r, a < r < b -> g r <= hi) -> upper_sum g e b s -> t == hi * (b - a) + s -> upper_sum g e a t.
(** m is the average of g over the draws between 0 and 1 (the integral, in the sense of Darboux): between all lower and all upper sums, and these come as close to each other as one wants *)
Definition average (g : Q -> Q) (m : Q) : Prop :=
  (forall s, lower_sum g 1 0 s -> s <= m) /\ (forall s, upper_sum g 1 0 s -> m <= s) /\ forall eps, 0 < eps -> exists s t, lower_sum g 1 0 s /\ upper_sum g 1 0 t /\ t - s < eps.
(** so there is only one average *)
Lemma average_unique : forall g m m', average g m -> average g m' -> m == m'.
Proof.
  assert (X : forall g m m', average g m -> average g m' -> m <= m').
  { intros g m m' (A & B & C) (A' & B' & _). destruct (Qlt_le_dec m' m) as [L|]; auto. destruct (C (m - m') ltac:(lra)) as (s & t & LS & US & D).
    specialize (A' s LS). specialize (B t US). lra. }
  intros g m m' A B. apply Qle_antisym; eauto.
Qed.
Lemma lower_proper : forall g e e' a s, lower_sum g e a s -> forall a' s', a == a' -> s == s' -> e == e' -> lower_sum g e' a' s'.
Proof.
  intros g e e' a s H. induction H as [a t A T|a b lo s t AB B L IH T]; intros a' s' EA ES EE; [apply ls_end; lra|].
  apply (ls_part g e' a' b lo s s'); [lra|intros r R; apply B; lra|apply IH; auto; reflexivity|rewrite <- ES, T, EA; reflexivity].
Qed.
Lemma lower_ext : forall g g' e a s, (forall r, 0 < r < 1 -> g r == g' r) -> 0 <= a -> e <= 1 -> lower_sum g e a s -> lower_sum g' e a s.
Proof.
  intros g g' e a s X A0 E H. induction H as [a t A T|a b lo s t AB B L IH T]; [apply ls_end; auto|]. assert (BE : b <= e) by (clear - L; induction L; lra).
  apply (ls_part g' e a b lo s t); auto; [|apply IH; lra]. intros r R. rewrite <- X by lra. auto.
Qed.
Lemma upper_neg : forall g e a s, upper_sum g e a s <-> lower_sum (fun r => - g r) e a (- s).
Proof.
  intros g e a s. split.
  - intro H. induction H as [a t A T|a b hi s t AB B L IH T]; [apply ls_end; lra|]. apply (ls_part _ e a b (- hi) (- s)); auto; [intros r R; specialize (B r R); lra|rewrite T; ring].
  - intro H. remember (- s) as s' eqn:E. assert (E' : s == - s') by (subst; ring). clear E. revert s E'. induction H as [a t A T|a b lo s' t AB B L IH T]; intros s E'; [apply us_end; lra|].
    apply (us_part g e a b (- lo) (- s') s); auto; [intros r R; specialize (B r R); lra|apply IH; reflexivity|rewrite E', T; ring].
Qed.
(** *** functions that are linear in parts *)
(** the parts: end of the part, value at the start and at the end *)
Definition segs := list (Q * Q * Q).
Fixpoint agrees (g : Q -> Q) (c : Q) (l : segs) : Prop :=
  match l with [] => True | (c1, x0, x1) :: l => c <= c1 /\ (forall r, c < r < c1 -> g r == line c c1 x0 x1 r) /\ agrees g c1 l end.
Fixpoint endp (c : Q) (l : segs) : Q := match l with [] => c | (c1, _, _) :: l => endp c1 l end.
Fixpoint trap (c : Q) (l : segs) : Q := match l with [] => 0 | (c1, x0, x1) :: l => (c1 - c) * ((x0 + x1) / 2) + trap c1 l end.
Fixpoint integ (c : Q) (l : segs) (b : Q) : Q :=
  match l with
  | [] => 0
  | (c1, x0, x1) :: l => if Qle_bool b c then 0 else if Qltb b c1 then (b - c) * line c c1 x0 x1 ((c + b) / 2) else (c1 - c) * ((x0 + x1) / 2) + integ c1 l b
  end.
Lemma agrees_end : forall g l c, agrees g c l -> c <= endp c l.
Proof. induction l as [|[[c1 x0] x1] l IH]; intros c A; cbn in *; [lra|]. destruct A as (A & _ & B). specialize (IH c1 B). lra. Qed.
Lemma integ_start : forall c l b, b <= c -> integ c l b == 0.
Proof. intros c [|[[c1 x0] x1] l] b H; cbn; [lra|]. assert (E : Qle_bool b c = true) by (apply Qle_bool_iff; auto). rewrite E. lra. Qed.
(** the value at and beyond the end *)
Lemma integ_end : forall g l c b, agrees g c l -> endp c l <= b -> c < b -> integ c l b == trap c l.
Proof.
  induction l as [|[[c1 x0] x1] l IH]; intros c b A E C; cbn in *; [lra|]. destruct A as (A & _ & B). pose proof (agrees_end g l c1 B) as AE.
  assert (E1 : Qle_bool b c = false) by (apply Qle_bool_false_iff; auto). assert (E2 : Qltb b c1 = false) by (apply Qltb_false_iff; lra). rewrite E1, E2.
  destruct (Qlt_le_dec c1 b) as [L|L]; [rewrite (IH c1 b B E L); reflexivity|]. rewrite (integ_start c1 l b) by auto.
  assert (T : trap c1 l == 0); [|rewrite T; reflexivity]. assert (EQ : endp c1 l <= c1) by lra. clear - B EQ. revert c1 B EQ. induction l as [|[[c2 y0] y1] l IH]; intros c1 B EQ; cbn in *; [lra|].
  destruct B as (B0 & _ & B). pose proof (agrees_end g l c2 B). assert (Z : c2 == c1) by lra. rewrite (IH c2 B ltac:(lra)), Z. ring.
Qed.
Lemma part_bound : forall g c c1 x0 x1 lo a b, (forall r, c < r < c1 -> g r == line c c1 x0 x1 r) -> c <= a -> a < b -> b <= c1 -> (forall r, a < r < b -> lo <= g r) -> lo * (b - a) <= (b - a) * line c c1 x0 x1 ((a + b) / 2).
Proof.
  intros g c c1 x0 x1 lo a b A CA AB BC L. assert (M : a < (a + b) / 2 < b) by (split; [apply Qlt_shift_div_l|apply Qlt_shift_div_r]; lra). specialize (L _ M). rewrite A in L by lra.
  assert (0 <= (b - a) * (line c c1 x0 x1 ((a + b) / 2) - lo)) by (apply Qmult_le_0_compat; lra). lra.
Qed.
Lemma integ_lower : forall g l c a b lo, agrees g c l -> c <= a -> a < b -> b <= endp c l -> (forall r, a < r < b -> lo <= g r) -> lo * (b - a) <= integ c l b - integ c l a.
Proof.
  induction l as [|[[c1 x0] x1] l IH]; intros c a b lo A CA AB BE L; cbn [agrees endp integ] in *; [lra|]. destruct A as (CC & A & B).
  assert (EB : Qle_bool b c = false) by (apply Qle_bool_false_iff; lra). rewrite EB.
  assert (IA : (if Qle_bool a c then 0 else if Qltb a c1 then (a - c) * line c c1 x0 x1 ((c + a) / 2) else (c1 - c) * ((x0 + x1) / 2) + integ c1 l a)
               == if Qltb a c1 then (a - c) * line c c1 x0 x1 ((c + a) / 2) else (c1 - c) * ((x0 + x1) / 2) + integ c1 l a).
  { destruct (Qle_bool a c) eqn:EA; [|reflexivity]. apply Qle_bool_iff in EA. assert (Z : a - c == 0) by lra. destruct (Qltb a c1) eqn:E; [rewrite Z; ring|]. apply Qltb_false_iff in E.
    assert (Z2 : c1 - c == 0) by lra. rewrite Z2, (integ_start c1 l a) by lra. ring. }
  rewrite IA. clear IA. destruct (Qltb a c1) eqn:EA1.
  - apply Qltb_iff in EA1. destruct (Qltb b c1) eqn:EB1.
    + apply Qltb_iff in EB1. pose proof (part_bound g c c1 x0 x1 lo a b A CA AB ltac:(lra) L) as P.
      assert (E : (b - c) * line c c1 x0 x1 ((c + b) / 2) - (a - c) * line c c1 x0 x1 ((c + a) / 2) == (b - a) * line c c1 x0 x1 ((a + b) / 2)) by (unfold line; field; lra). rewrite E. auto.
    + apply Qltb_false_iff in EB1. pose proof (part_bound g c c1 x0 x1 lo a c1 A CA EA1 ltac:(lra) ltac:(intros r R; apply L; lra)) as P.
      assert (E : (c1 - c) * ((x0 + x1) / 2) - (a - c) * line c c1 x0 x1 ((c + a) / 2) == (c1 - a) * line c c1 x0 x1 ((a + c1) / 2)) by (unfold line; field; lra).
      destruct (Qlt_le_dec c1 b) as [LB|LB].
      * pose proof (IH c1 c1 b lo B ltac:(lra) LB BE ltac:(intros r R; apply L; lra)) as P2. rewrite (integ_start c1 l c1) in P2 by lra. lra.
      * rewrite (integ_start c1 l b) by auto. assert (Z : b == c1) by lra. rewrite Z. lra.
  - apply Qltb_false_iff in EA1. assert (EB1 : Qltb b c1 = false) by (apply Qltb_false_iff; lra). rewrite EB1. pose proof (IH c1 a b lo B EA1 AB BE L). lra.
Qed.
Lemma lower_integ : forall g l c a s, agrees g c l -> c <= a -> lower_sum g (endp c l) a s -> s <= integ c l (endp c l) - integ c l a.
Proof.
  intros g l c a s A CA H. induction H as [a t E T|a b lo s t AB B L IH T].
  - assert (X : integ c l a == integ c l (endp c l)); [|rewrite X, T; lra].
    pose proof (agrees_end g l c A) as AE. destruct (Qlt_le_dec c a) as [L|L].
    + rewrite (integ_end g l c a A) by (auto; lra). rewrite (integ_end g l c (endp c l) A) by lra. reflexivity.
    + rewrite (integ_start c l a), (integ_start c l (endp c l)) by lra. reflexivity.
  - assert (BE : b <= endp c l) by (clear - L; induction L; lra). pose proof (integ_lower g l c a b lo A CA AB BE B) as P. specialize (IH ltac:(lra)). lra.
Qed.
(** a part cut in n equal pieces of length dl *)
Lemma pieces : forall g e c c1 x0 x1 dl s, (forall r, c < r < c1 -> g r == line c c1 x0 x1 r) -> c < c1 -> 0 < dl -> lower_sum g e c1 s ->
  forall k, c <= c1 - inject_Z (Z.of_nat k) * dl -> let K := inject_Z (Z.of_nat k) in
  lower_sum g e (c1 - K * dl) (s + K * dl * line c c1 x0 x1 (c1 - K * dl / 2) - K * dl * dl * (Qabs (x1 - x0) / (c1 - c)) / 2).
Proof.
  intros g e c c1 x0 x1 dl s A CC D L. induction k as [|k IH]; intros CK K.
  - eapply lower_proper; [exact L| | |reflexivity]; unfold K; cbn; [ring|]. field. lra.
  - set (J := inject_Z (Z.of_nat k)) in *. assert (KJ : K == J + 1) by (unfold K, J; rewrite Nat2Z.inj_succ; unfold Z.succ; rewrite inject_Z_plus; reflexivity).
    assert (CK' : c <= c1 - (J + 1) * dl) by (rewrite <- KJ; exact CK). clear CK. specialize (IH ltac:(lra)). cbn zeta in IH.
    assert (JN : 0 <= J) by (unfold J; change 0 with (inject_Z 0); rewrite <- Zle_Qle; lia). assert (JD : 0 <= J * dl) by (apply Qmult_le_0_compat; lra).
    set (mid := c1 - (J + (1 # 2)) * dl). set (sl := Qabs (x1 - x0) / (c1 - c)) in *.
    apply (ls_part g e _ (c1 - J * dl) (line c c1 x0 x1 mid - sl * dl / 2) (s + J * dl * line c c1 x0 x1 (c1 - J * dl / 2) - J * dl * dl * sl / 2)).
    + rewrite KJ. lra.
    + intros r R. rewrite KJ in R. rewrite A by lra.
      assert (E : line c c1 x0 x1 r == line c c1 x0 x1 mid + (x1 - x0) / (c1 - c) * (r - mid)) by (unfold line; field; lra). rewrite E.
      assert (AB : - (dl / 2) <= r - mid <= dl / 2) by (unfold mid; split; [|]; setoid_replace (dl / 2) with ((1 # 2) * dl) by field; lra).
      assert (SA : Qabs ((x1 - x0) / (c1 - c) * (r - mid)) <= sl * (dl / 2)).
      { rewrite Qabs_Qmult. unfold sl, Qdiv at 1. rewrite Qabs_Qmult. rewrite (Qabs_pos (/ (c1 - c))) by (apply Qlt_le_weak, Qinv_lt_0_compat; lra).
        assert (0 <= Qabs (x1 - x0) * / (c1 - c)). { apply Qmult_le_0_compat; [apply Qabs_nonneg|apply Qlt_le_weak, Qinv_lt_0_compat; lra]. }
        setoid_rewrite Qmult_comm. apply Qmult_le_compat_r; auto. apply Qabs_Qle_condition. auto. }
      apply Qabs_Qle_condition in SA. setoid_replace (sl * dl / 2) with (sl * (dl / 2)) by field. lra.
    + exact IH.
    + unfold mid, line. clearbody sl J K. rewrite KJ. field. lra.
Qed.
Lemma enough : forall q eps, 0 < eps -> exists n, (0 < n)%nat /\ q <= eps * inject_Z (Z.of_nat n).
Proof.
  intros q eps E. exists (S (Z.to_nat (Qceiling (q / eps)))). split; [lia|]. assert (H : q / eps <= inject_Z (Z.of_nat (S (Z.to_nat (Qceiling (q / eps)))))).
  { eapply Qle_trans; [apply Qle_ceiling|]. rewrite <- Zle_Qle. lia. }
  assert (X : q == q / eps * eps) by (field; lra). rewrite X at 1. setoid_rewrite (Qmult_comm eps). apply Qmult_le_compat_r; lra.
Qed.
Lemma lower_close : forall g l c eps, agrees g c l -> 0 < eps -> exists s, lower_sum g (endp c l) c s /\ trap c l - s <= eps * (endp c l - c).
Proof.
  induction l as [|[[c1 x0] x1] l IH]; intros c eps A E; cbn [agrees endp trap] in *; [exists 0; split; [apply ls_end; reflexivity|lra]|].
  destruct A as (CC & A & B). destruct (IH c1 eps B E) as (s & L & D). destruct (Qlt_le_dec c c1) as [LT|GE].
  - destruct (enough (Qabs (x1 - x0)) eps E) as (n & N0 & N). set (K := inject_Z (Z.of_nat n)) in *. assert (KP : 0 < K) by (unfold K; change 0 with (inject_Z 0); rewrite <- Zlt_Qlt; lia).
    set (dl := (c1 - c) / K). assert (DP : 0 < dl) by (unfold dl; apply Qlt_shift_div_l; lra). assert (KD : K * dl == c1 - c) by (unfold dl; field; lra).
    pose proof (pieces g (endp c1 l) c c1 x0 x1 dl s A LT DP L n) as P. fold K in P. cbn zeta in P. specialize (P ltac:(rewrite KD; lra)).
    exists (s + K * dl * line c c1 x0 x1 (c1 - K * dl / 2) - K * dl * dl * (Qabs (x1 - x0) / (c1 - c)) / 2). split.
    + eapply lower_proper; [exact P| |reflexivity|reflexivity]. rewrite KD. ring.
    + assert (X : K * dl * line c c1 x0 x1 (c1 - K * dl / 2) == (c1 - c) * ((x0 + x1) / 2)) by (unfold line; rewrite KD; field; lra). rewrite X.
      assert (Y : K * dl * dl * (Qabs (x1 - x0) / (c1 - c)) / 2 == (c1 - c) * (Qabs (x1 - x0) / K) / 2) by (unfold dl; field; split; lra). rewrite Y.
      assert (Z : Qabs (x1 - x0) / K <= eps) by (apply Qle_shift_div_r; auto). assert (W : 0 <= (c1 - c) * (eps - Qabs (x1 - x0) / K)) by (apply Qmult_le_0_compat; lra).
      assert (V : 0 <= (c1 - c) * eps) by (apply Qmult_le_0_compat; lra). set (w := Qabs (x1 - x0) / K) in *. clearbody w. assert (HALF : (c1 - c) * w / 2 == (1 # 2) * ((c1 - c) * w)) by field. rewrite HALF. lra.
  - assert (Z : c1 == c) by lra. exists s. split; [eapply lower_proper; [exact L|exact Z|reflexivity|reflexivity]|]. assert (Z0 : (c1 - c) * ((x0 + x1) / 2) == 0) by (setoid_replace (c1 - c) with 0 by lra; ring). rewrite Z0. assert (Z1 : eps * (endp c1 l - c1) == eps * (endp c1 l - c)) by (setoid_replace (endp c1 l - c1) with (endp c1 l - c) by lra; reflexivity). lra.
Qed.
Definition neg_segs (l : segs) : segs := map (fun '(c1, x0, x1) => (c1, - x0, - x1)) l.
Lemma agrees_neg : forall g l c, agrees g c l -> agrees (fun r => - g r) c (neg_segs l).
Proof. induction l as [|[[c1 x0] x1] l IH]; intros c A; cbn in *; auto. destruct A as (A & B & C). split; auto. split; [intros r R; rewrite B by auto; symmetry; apply line_neg|auto]. Qed.
Lemma endp_neg : forall l c, endp c (neg_segs l) = endp c l.
Proof. induction l as [|[[c1 x0] x1] l IH]; intro c; cbn in *; auto. Qed.
Lemma trap_neg : forall l c, trap c (neg_segs l) == - trap c l.
Proof. induction l as [|[[c1 x0] x1] l IH]; intro c; cbn in *; [lra|]. rewrite IH. field. Qed.
(** a function that is linear in parts has an average: the sum over the parts of the mean of the values at both ends times the length *)
Lemma average_segs : forall g l, agrees g 0 l -> endp 0 l == 1 -> average g (trap 0 l).
Proof.
  assert (LOW : forall g l s, agrees g 0 l -> endp 0 l == 1 -> lower_sum g 1 0 s -> s <= trap 0 l).
  { intros g l s A E L. assert (L' : lower_sum g (endp 0 l) 0 s) by (eapply lower_proper; [exact L|reflexivity|reflexivity|lra]).
    pose proof (lower_integ g l 0 0 s A ltac:(lra) L') as X. rewrite (integ_start 0 l 0), (integ_end g l 0 (endp 0 l) A) in X by lra. lra. }
  intros g l A E. assert (EN : endp 0 (neg_segs l) == 1) by (rewrite endp_neg; auto). split; [|split].
  - intros s L. apply (LOW g l s A E L).
  - intros s U. apply upper_neg in U. pose proof (LOW _ _ _ (agrees_neg g l 0 A) EN U) as X. rewrite trap_neg in X. lra.
  - intros eps EP. destruct (lower_close g l 0 (eps / 4) A) as (s & L & D); [apply Qlt_shift_div_l; lra|].
    destruct (lower_close (fun r => - g r) (neg_segs l) 0 (eps / 4) (agrees_neg g l 0 A)) as (t & L2 & D2); [apply Qlt_shift_div_l; lra|]. rewrite endp_neg in *. rewrite trap_neg in D2. rewrite E in D, D2.
    exists s, (- t). split; [eapply lower_proper; [exact L|reflexivity|reflexivity|exact E]|]. split; [|setoid_replace (eps / 4) with ((1 # 4) * eps) in D by field; setoid_replace (eps / 4) with ((1 # 4) * eps) in D2 by field; lra].
    apply upper_neg. eapply lower_proper; [exact L2|reflexivity|ring|exact E].
Qed.
Lemma average_proper : forall g m m', average g m -> m == m' -> average g m'.
Proof. intros g m m' (A & B & C) E. split; [intros s L; specialize (A s L); lra|]. split; [intros s L; specialize (B s L); lra|auto]. Qed.
Lemma average_ext : forall g g' m, (forall r, 0 < r < 1 -> g r == g' r) -> average g m -> average g' m.
Proof.
  intros g g' m X (A & B & C). assert (Y : forall r, 0 < r < 1 -> g' r == g r) by (intros; symmetry; auto).
  assert (U : forall g g' s, (forall r, 0 < r < 1 -> g r == g' r) -> upper_sum g 1 0 s -> upper_sum g' 1 0 s).
  { intros h h' s H U. apply upper_neg. apply upper_neg in U. eapply (lower_ext (fun r => - h r)); [|lra|lra|exact U]. intros r R. cbn. rewrite (H r R). reflexivity. }
  split; [|split].
  - intros s L. apply A. eapply lower_ext; [exact Y|lra|lra|exact L].
  - intros s L. apply B. eapply U; eauto.
  - intros eps E. destruct (C eps E) as (s & t & L & R & D). exists s, t. split; [eapply lower_ext; [exact X|lra|lra|exact L]|]. split; auto. eapply U; eauto.
Qed.
Lemma average_neg : forall g m, average g m -> average (fun r => - g r) (- m).
Proof.
  intros g m (A & B & C).
  assert (P : forall s, lower_sum (fun r => - g r) 1 0 s -> upper_sum g 1 0 (- s)) by (intros s L; apply upper_neg; eapply lower_proper; [exact L|reflexivity|ring|reflexivity]).
  assert (R : forall s, lower_sum g 1 0 s -> upper_sum (fun r => - g r) 1 0 (- s)).
  { intros s L. apply upper_neg. assert (L' : lower_sum (fun r => - - g r) 1 0 s) by (eapply lower_ext; [|lra|lra|exact L]; intros; cbn; ring). eapply lower_proper; [exact L'|reflexivity|ring|reflexivity]. }
  assert (W : forall s, upper_sum (fun r => - g r) 1 0 s -> lower_sum g 1 0 (- s)).
  { intros s U. apply upper_neg in U. eapply lower_ext; [|lra|lra|exact U]. intros; cbn; ring. }
  split; [|split].
  - intros s L. specialize (B _ (P s L)). lra.
  - intros s U. specialize (A _ (W s U)). lra.
  - intros eps E. destruct (C eps E) as (s & t & L & U & D). exists (- t), (- s). split; [apply upper_neg in U; auto|]. split; [apply R; auto|lra].
Qed.
Lemma lower_affine : forall g a b e x s, 0 < a -> lower_sum g e x s -> lower_sum (fun r => a * g r + b) e x (a * s + b * (e - x)).
Proof.
  intros g a b e x s A H. induction H as [x t X T|x y lo s t XY B L IH T]; [apply ls_end; auto; rewrite T, X; ring|].
  apply (ls_part _ e x y (a * lo + b) (a * s + b * (e - y))); auto; [|rewrite T; ring]. intros r R. specialize (B r R). assert (0 <= a * (g r - lo)) by (apply Qmult_le_0_compat; lra). lra.
Qed.
Lemma upper_affine : forall g a b e x s, 0 < a -> upper_sum g e x s -> upper_sum (fun r => a * g r + b) e x (a * s + b * (e - x)).
Proof.
  intros g a b e x s A H. induction H as [x t X T|x y hi s t XY B L IH T]; [apply us_end; auto; rewrite T, X; ring|].
  apply (us_part _ e x y (a * hi + b) (a * s + b * (e - y))); auto; [|rewrite T; ring]. intros r R. specialize (B r R). assert (0 <= a * (hi - g r)) by (apply Qmult_le_0_compat; lra). lra.
Qed.
Lemma average_pos : forall g m a b, 0 < a -> average g m -> average (fun r => a * g r + b) (a * m + b).
Proof.
  intros g m a b A (P & R & C). assert (IA : 0 < / a) by (apply Qinv_lt_0_compat; auto).
  assert (SC : forall s m, / a * s + (- b / a) * (1 - 0) <= m -> s <= a * m + b).
  { intros s m' H. apply (Qmult_le_compat_r _ _ a) in H; [|lra]. assert (E : (/ a * s + (- b / a) * (1 - 0)) * a == s - b) by (field; lra). rewrite E in H. lra. }
  assert (SC2 : forall s m, m <= / a * s + (- b / a) * (1 - 0) -> a * m + b <= s).
  { intros s m' H. apply (Qmult_le_compat_r _ _ a) in H; [|lra]. assert (E : (/ a * s + (- b / a) * (1 - 0)) * a == s - b) by (field; lra). rewrite E in H. lra. }
  split; [|split].
  - intros s L. apply SC. apply P. apply (lower_affine _ (/ a) (- b / a)) in L; auto. eapply lower_ext; [|lra|lra|exact L]. intros r _. cbn. field. lra.
  - intros s U. apply SC2. apply R. apply (upper_affine _ (/ a) (- b / a)) in U; auto. apply upper_neg. apply upper_neg in U. eapply lower_ext; [|lra|lra|exact U]. intros r _. cbn. field. lra.
  - intros eps E. destruct (C (eps / a)) as (s & t & L & U & D); [apply Qlt_shift_div_l; lra|]. exists (a * s + b * (1 - 0)), (a * t + b * (1 - 0)).
    split; [apply lower_affine; auto|]. split; [apply upper_affine; auto|]. apply (Qmult_lt_compat_r _ _ a A) in D. assert (X : eps / a * a == eps) by (field; lra). rewrite X in D. lra.
Qed.
Lemma average_const : forall b, average (fun _ => b) b.
Proof.
  intro b. eapply average_proper; [apply (average_segs _ [(1, b, b)])|cbn; field]; cbn; [|reflexivity]. split; [lra|]. split; auto. intros r R. unfold line. field.
Qed.
Lemma average_affine : forall g m a b, average g m -> average (fun r => a * g r + b) (a * m + b).
Proof.
  intros g m a b H. destruct (Q_dec a 0) as [[N|P]|Z].
  - apply average_neg in H. apply (average_pos _ _ (- a) b) in H; [|lra]. eapply average_proper; [eapply average_ext; [|exact H]|ring]. intros r _. cbn. ring.
  - apply average_pos; auto.
  - eapply average_proper; [eapply average_ext; [|exact (average_const b)]|rewrite Z; ring]. intros r _. cbn. rewrite Z. ring.
Qed.
(** *** several draws: the average over the first one of the average over the others *)
Fixpoint avg (k : nat) (g : list Q -> Q) (m : Q) : Prop :=
  match k with
  | O => g [] == m
  | S k => exists h, (forall r, 0 < r < 1 -> avg k (fun rs => g (r :: rs)) (h r)) /\ average h m
  end.
Definition unit_draws (k : nat) (rs : list Q) : Prop := length rs = k /\ Forall (fun r => 0 < r < 1) rs.
Lemma avg_ext : forall k g g' m, (forall rs, unit_draws k rs -> g rs == g' rs) -> avg k g m -> avg k g' m.
Proof.
  induction k as [|k IH]; intros g g' m X A; cbn [avg] in *; [rewrite <- X; auto; split; auto|]. destruct A as (h & A & B). exists h. split; auto. intros r R. apply (IH (fun rs => g (r :: rs))); auto.
  intros rs (L & F). apply X. split; cbn; auto.
Qed.
Lemma avg_proper : forall k g m m', avg k g m -> m == m' -> avg k g m'.
Proof. intros [|k] g m m' A E; cbn [avg] in *; [lra|]. destruct A as (h & A & B). exists h. split; auto. eapply average_proper; eauto. Qed.
Lemma avg_affine : forall k g m a b, avg k g m -> avg k (fun rs => a * g rs + b) (a * m + b).
Proof.
  induction k as [|k IH]; intros g m a b A; cbn [avg] in *; [rewrite A; reflexivity|]. destruct A as (h & A & B). exists (fun r => a * h r + b). split; [intros r R; apply (IH (fun rs => g (r :: rs))); auto|].
  apply average_affine. auto.
Qed.
Lemma avg_sum : forall k1 k2 g1 g2 m1 m2 a b, avg k1 g1 m1 -> avg k2 g2 m2 -> avg (k1 + k2) (fun rs => a * g1 (firstn k1 rs) + b * g2 (skipn k1 rs)) (a * m1 + b * m2).
Proof.
  induction k1 as [|k1 IH]; intros k2 g1 g2 m1 m2 a b A B.
  - cbn [avg plus] in *. apply (avg_affine k2 g2 m2 b (a * g1 [])) in B. eapply avg_proper; [eapply avg_ext; [|exact B]|rewrite A; ring]. intros rs _. cbn. ring.
  - cbn [avg plus] in *. destruct A as (h & A & AV). exists (fun r => a * h r + b * m2). split; [|apply average_affine; auto]. intros r R. cbn [firstn skipn]. apply (IH k2 (fun rs => g1 (r :: rs)) g2 (h r) m2); auto.
Qed.
(** ** The average of the samples *)
(** successive draws from the random stream *)
Inductive feed {St} (G : rng St) : St -> list Q -> St -> Prop :=
| feed_none : forall s, feed G s [] s
| feed_one : forall s r s1 rs s2, gr_random G s = (r, s1) -> feed G s1 rs s2 -> feed G s (r :: rs) s2.
Lemma feed_app : forall St (G : rng St) k rs s s2, feed G s rs s2 -> exists s1, feed G s (firstn k rs) s1 /\ feed G s1 (skipn k rs) s2.
Proof.
  induction k as [|k IH]; intros rs s s2 H; cbn [firstn skipn]; [exists s; split; auto; constructor|]. inversion H as [|? r s1 rs' ? R F]; subst; [exists s2; split; constructor|].
  destruct (IH _ _ _ F) as (s3 & A & B). exists s3. split; auto. econstructor; eauto.
Qed.
(** sample() takes k draws, and what it gives, a number depending on these draws only, is m on average *)
Definition sampled {X} (run : forall St, rng St -> X -> St -> dres val * St) (x : X) (m : Q) : Prop :=
  exists k g, (forall rs, unit_draws k rs -> forall St (G : rng St) s s1, feed G s rs s1 -> exists q, run St G x s = (DOk (VNum q), s1) /\ q == g rs) /\ avg k g m.
Definition mean_of (d : dist) (m : Q) : Prop := sampled (@sample) d m.
Lemma one_draw : forall d g m, (forall r, 0 < r < 1 -> forall St (G : rng St) s s1, gr_random G s = (r, s1) -> exists q, sample G d s = (DOk (VNum q), s1) /\ q == g r) -> average g m -> mean_of d m.
Proof.
  intros d g m H A. exists 1%nat, (fun rs => g (hd 0 rs)). split.
  - intros rs (L & F) St G s s1 FD. destruct rs as [|r [|? ?]]; try discriminate. inversion FD as [|? ? s2 ? ? R FD']; subst. inversion FD'; subst. inversion F; subst. cbn. eapply H; eauto.
  - cbn [avg hd]. exists g. split; auto. intros r R. reflexivity.
Qed.
(** the stream that gives one draw *)
Definition one : rng Q := mkRng (fun s => (s, s)) (fun a s => (a, s)) (fun a b s => (a, s)) (fun a b s => (a, s)) (fun a b s => (a, s)) (fun a b s => (a, s)) (fun a b s => (a, s)) (fun a b s => (a, s)) (fun x => x) (fun n k s => ([], s)).
Definition outcome (d : dist) (r : Q) : Q := match fst (sample one d r) with DOk (VNum q) => q | _ => 0 end.
(** Uniform *)
Lemma mean_uni : forall lo hi f d m, new_uni lo hi f = DOk d -> mean d = DOk (Some m) -> mean_of d m.
Proof.
  intros lo hi f d m H M. unfold new_uni in H. set (h := match hi with None => lo | Some h => h end) in *. destruct (Qltb h lo); [discriminate|]. injection H as <-. cbn [mean] in M. injection M as <-.
  apply (one_draw _ (fun r => (lo + (h - lo) * r) * f)).
  - intros r R St G s s1 GR. cbn [sample]. unfold py_uniform. rewrite GR. eexists. split; [reflexivity|reflexivity].
  - eapply average_proper; [apply (average_segs _ [(1, lo * f, h * f)])|cbn; field]; cbn; [|reflexivity]. split; [lra|]. split; auto. intros r R. unfold line. field.
Qed.
(** Cdf *)
Fixpoint segs_of (l : list (Q * Q)) : segs := match l with (x0, c0) :: (((x1, c1) :: _) as l') => (c1, x0, x1) :: segs_of l' | _ => [] end.
Lemma segs_agree : forall g l x c, (forall i x0 c0 x1 c1, nth_error ((x, c) :: l) i = Some (x0, c0) -> nth_error ((x, c) :: l) (S i) = Some (x1, c1) -> c0 <= c1 /\ forall r, c0 < r < c1 -> g r == line c0 c1 x0 x1 r) ->
  agrees g c (segs_of ((x, c) :: l)) /\ endp c (segs_of ((x, c) :: l)) = snd (last ((x, c) :: l) (0, 0)) /\ trap c (segs_of ((x, c) :: l)) == cdf_mean ((x, c) :: l).
Proof.
  intros g. induction l as [|[x' c'] l IH]; intros x c H; [cbn; repeat split; auto; reflexivity|].
  destruct (IH x' c') as (A & B & C); [intros i x0 c0 x1 c1 N0 N1; apply (H (S i)); auto|]. destruct (H 0%nat x c x' c' eq_refl eq_refl) as (L & E).
  change (segs_of ((x, c) :: (x', c') :: l)) with ((c', x, x') :: segs_of ((x', c') :: l)). cbn [agrees endp trap]. split; [auto|]. split; [exact B|].
  change (cdf_mean ((x, c) :: (x', c') :: l)) with ((x + x') / 2 * (c' - c) + cdf_mean ((x', c') :: l)). rewrite C. ring.
Qed.
Lemma mean_cdf : forall spec f d m, 0 < f -> new_cdf spec f = DOk d -> mean d = DOk (Some m) -> mean_of d m.
Proof.
  intros spec f d m F H M. destruct (C46_checked spec f d F H) as (TP & (x00 & c00 & N00 & Z0) & INC).
  assert (ALL : forall r, 0 < r < 1 -> exists z, forall St (G : rng St) s s1, gr_random G s = (r, s1) -> exists q, sample G d s = (DOk (VNum q), s1) /\ q == z).
  { intros r R. destruct (cdf_part spec (r * topc spec)) as (k & x0 & c0 & x1 & c1 & N0 & N1 & B).
    - exists x00, c00. split; auto. assert (0 <= r * topc spec) by (apply Qmult_le_0_compat; lra). lra.
    - assert (0 < (1 - r) * topc spec) by (apply Qmult_lt_0_compat; lra). lra.
    - eexists. intros St G s s1 GR. destruct (C46_linear St G spec f d s r s1 k x0 c0 x1 c1 F H GR N0 N1 B) as (q & S & E). exists q. split; [exact S|]. exact E. }
  apply (one_draw d (outcome d)).
  - intros r R St G s s1 GR. destruct (ALL r R) as (z & A). destruct (A St G s s1 GR) as (q & S & E). destruct (A Q one r r eq_refl) as (q' & S' & E'). exists q. split; auto. unfold outcome. rewrite S'. cbn. lra.
  - pose proof (new_cdf_ok spec f d F H) as D. cbn zeta in D. set (l := map (fun '(x, c) => (x * f, c / topc spec)) spec) in *. assert (MM : m = cdf_mean l) by (rewrite D in M; injection M as <-; reflexivity).
    destruct spec as [|[xa ca] spec0]; [discriminate|]. cbn in N00. injection N00 as -> ->. cbn [map] in l. set (t := topc ((x00, c00) :: spec0)) in *.
    destruct (segs_agree (outcome d) (map (fun '(x, c) => (x * f, c / t)) spec0) (x00 * f) (c00 / t)) as (A & B & C).
    + intros i x0 c0 x1 c1 N0 N1. change ((x00 * f, c00 / t) :: map (fun '(x, c) => (x * f, c / t)) spec0) with (map (fun '(x, c) => (x * f, c / t)) ((x00, c00) :: spec0)) in *. rewrite nth_error_map in N0, N1.
      destruct (nth_error ((x00, c00) :: spec0) i) as [[y0 d0]|] eqn:E0; [|discriminate]. destruct (nth_error ((x00, c00) :: spec0) (S i)) as [[y1 d1]|] eqn:E1; [|discriminate].
      cbn [option_map] in N0, N1. injection N0 as <- <-. injection N1 as <- <-. destruct (INC i y0 d0 y1 d1 E0 E1) as (_ & LE). split.
      * apply Qle_shift_div_l; auto. assert (X : d0 / t * t == d0) by (field; lra). rewrite X. auto.
      * intros r (R0 & R1). apply (div_lt _ _ _ TP) in R0. assert (R1' : r * t < d1). { apply (Qmult_lt_compat_r _ _ t TP) in R1. assert (X : d1 / t * t == d1) by (field; lra). rewrite X in R1. auto. }
        destruct (C46_linear Q one ((x00, c00) :: spec0) f d r r r i y0 d0 y1 d1 F H eq_refl E0 E1 ltac:(split; [apply Qlt_le_weak|]; auto)) as (q & S & E). unfold outcome. rewrite S. cbn [fst]. rewrite E. unfold line. fold t.
        assert (d0 < d1) by lra. field. split; lra.
    + assert (CZ : c00 / t == 0) by (rewrite Z0; field; lra). subst m. fold l in A, B, C.
      assert (EP : endp (c00 / t) (segs_of l) == 1).
      { rewrite B. unfold l. change ((x00 * f, c00 / t) :: map (fun '(x, c) => (x * f, c / t)) spec0) with (map (fun '(x, c) => (x * f, c / t)) ((x00, c00) :: spec0)).
        assert (TE : snd (last (map (fun '(x, c) => (x * f, c / t)) ((x00, c00) :: spec0)) (0, 0)) == t / t).
        { unfold t at 2. unfold topc. destruct (@exists_last _ ((x00, c00) :: spec0) ltac:(discriminate)) as (l' & [x c] & ->). rewrite map_app. cbn [map]. rewrite !last_last. reflexivity. }
        rewrite TE. field. lra. }
      destruct (segs_of l) as [|[[c1 y0] y1] sg] eqn:SG; [cbn in EP; lra|].
      assert (A' : agrees (outcome d) 0 ((c1, y0, y1) :: sg)).
      { cbn [agrees] in *. destruct A as (A1 & A2 & A3). split; [lra|]. split; auto. intros r R. rewrite A2 by lra. unfold line. rewrite CZ. reflexivity. }
      eapply average_proper; [apply (average_segs _ _ A'); exact EP|]. rewrite <- C. cbn [trap]. rewrite CZ. reflexivity.
Qed.
(** Pdf with numbers as values *)
Definition fac (u : option Q) : Q := match u with None => 1 | Some f => f end.
Definition num (x : pval) : Q := match x with PNum q => q | _ => 0 end.
Definition numbers (l : list (pval * Q)) : Prop := forall x p, In (x, p) l -> exists q, x = PNum q.
(** the sum of the values times the probabilities *)
Definition weighted (f : Q) (l : list (pval * Q)) : Q := sumQ (map (fun '(x, p) => num x * f * p) l).
Lemma unit_num : forall u x y q, unit_of u x y -> x = PNum q -> exists z, y = PNum z /\ z == q * fac u.
Proof. intros [f|] x y q U ->; cbn in *; [destruct U as (z & E & ->); injection E as <-; eexists; split; [reflexivity|reflexivity]|subst; eexists; split; [reflexivity|ring]]. Qed.
Lemma pdf_loop_mean : forall u l s sx r t sx', numbers l -> pdf_loop u s (Some sx) l = DOk (r, t, sx') -> exists w, sx' = Some w /\ w == sx + weighted (fac u) l.
Proof.
  induction l as [|[x p] l IH]; intros s sx r t sx' NU H; cbn [pdf_loop] in H; [injection H as <- <- <-; exists sx; split; auto; unfold weighted; cbn; lra|].
  destruct (NU x p (or_introl eq_refl)) as (q & ->). destruct (in_unit u (PNum q)) as [y|] eqn:U; [|discriminate]. apply in_unit_ok in U. destruct (unit_num u _ _ q U eq_refl) as (z & -> & Z). cbn [dbind mean_of_x oadd] in H.
  destruct (pdf_loop u (s + p) (Some (sx + z * p)) l) as [[[r' t'] sx'']|] eqn:L; [|discriminate]. cbn [dbind] in H. injection H as <- <- <-.
  destruct (IH _ _ _ _ _ ltac:(intros a b I; apply (NU a b); cbn; auto) L) as (w & -> & W). exists w. split; auto. rewrite W. unfold weighted. cbn [map sumQ num]. rewrite Z. ring.
Qed.
Fixpoint psegs (f t a : Q) (l : list (pval * Q)) : segs := match l with [] => [] | (x, p) :: l => ((a + p) / t, num x * f, num x * f) :: psegs f t (a + p) l end.
Lemma psegs_ok : forall g f t l a, 0 < t -> Forall (fun xp => 0 <= snd xp) l ->
  (forall i x p, nth_error l i = Some (x, p) -> forall r, a + upto i l < r * t < a + upto i l + p -> g r == num x * f) ->
  agrees g (a / t) (psegs f t a l) /\ endp (a / t) (psegs f t a l) == (a + total l) / t /\ trap (a / t) (psegs f t a l) == weighted f l / t.
Proof.
  intros g f t. induction l as [|[x p] l IH]; intros a T NN H; cbn [psegs agrees endp trap].
  - split; auto. split; [unfold total; cbn; field; lra|unfold weighted; cbn; field; lra].
  - inversion NN as [|? ? P0 NN']; subst. cbn [snd] in P0. destruct (IH (a + p) T NN') as (A & B & C).
    + intros i y q N r R. apply (H (S i) y q N). rewrite upto_S. lra.
    + split; [|split].
      * split; [unfold Qdiv; apply Qmult_le_compat_r; [lra|apply Qlt_le_weak, Qinv_lt_0_compat; auto]|]. split; auto. intros r (R0 & R1).
        rewrite (H 0%nat x p eq_refl r).
        -- unfold line. assert (X : num x * f - num x * f == 0) by ring. rewrite X. unfold Qdiv. ring.
        -- rewrite upto_0. apply (div_lt _ _ _ T) in R0. apply (Qmult_lt_compat_r _ _ t T) in R1. assert (X : (a + p) / t * t == a + p) by (field; lra). rewrite X in R1. lra.
      * rewrite B. unfold total. cbn [map snd sumQ]. field. lra.
      * rewrite C. unfold weighted. cbn [map sumQ]. field. lra.
Qed.
(** from draws to the average for values of a Pdf or CumPdf *)
Lemma mean_steps : forall d f t l m, 0 < t -> t == total l -> Forall (fun xp => 0 <= snd xp) l ->
  (forall i x p, nth_error l i = Some (x, p) -> forall r, upto i l < r * t <= upto i l + p -> exists z, z == num x * f /\ forall St (G : rng St) s s1, gr_random G s = (r, s1) -> sample G d s = (DOk (VNum z), s1)) ->
  m == weighted f l / t -> mean_of d m.
Proof.
  intros d f t l m T TE NN H M. apply (one_draw d (outcome d)).
  - intros r R St G s s1 GR. assert (Z0 : 0 < r * t) by (apply Qmult_lt_0_compat; lra). assert (Z1 : 0 < (1 - r) * t) by (apply Qmult_lt_0_compat; lra).
    destruct (parts l (r * t) Z0 ltac:(lra)) as (i & x & p & N & B). destruct (H i x p N r B) as (z & _ & S). exists z. split; [apply S; auto|]. unfold outcome. rewrite (S Q one r r eq_refl). reflexivity.
  - destruct (psegs_ok (outcome d) f t l 0 T NN) as (A & B & C).
    + intros i x p N r R. destruct (H i x p N r ltac:(lra)) as (z & E & S). unfold outcome. rewrite (S Q one r r eq_refl). exact E.
    + assert (EP : endp (0 / t) (psegs f t 0 l) == 1) by (rewrite B, <- TE; field; lra).
      assert (Z : 0 / t == 0) by (field; lra). destruct (psegs f t 0 l) as [|[[c1 y0] y1] sg]; [cbn in EP; lra|].
      assert (A' : agrees (outcome d) 0 ((c1, y0, y1) :: sg)).
      { cbn [agrees] in *. destruct A as (A1 & A2 & A3). split; [lra|]. split; auto. intros r R. rewrite A2 by lra. unfold line. rewrite Z. reflexivity. }
      eapply average_proper; [apply (average_segs _ _ A'); exact EP|]. rewrite M, <- C. cbn [trap]. rewrite Z. reflexivity.
Qed.
Lemma mean_pdf : forall l u d m, numbers l -> Forall (fun xp => 0 <= snd xp) l -> new_pdf l u = DOk d -> all_equal (map snd l) = false -> mean d = DOk (Some m) -> mean_of d m.
Proof.
  intros l u d m NU NN H NE M. destruct (new_pdf_ok l u d H) as (rr & t & sx & L & TZ & D & _). destruct (pdf_loop_mean u l 0 0 rr t sx NU L) as (w & -> & W).
  destruct (pdf_loop_ok _ _ _ _ _ _ _ L) as (T & _). pose proof (total_nonneg l NN) as TN. apply (mean_steps d (fac u) t l m); auto; [lra|lra| |].
  - intros i x p N r R. destruct (NU x p (nth_error_In _ _ N)) as (q & ->). assert (RT : r * t == r * total l) by (rewrite T; ring).
    destruct (C45_share Q one l u d r r r i (PNum q) p NN H NE eq_refl N ltac:(lra)) as (y & U & _). destruct (unit_num u _ _ q U eq_refl) as (z & -> & Z). exists z. split; auto. intros St G s s1 GR.
    destruct (C45_share St G l u d s r s1 i (PNum q) p NN H NE GR N ltac:(lra)) as (y & U2 & S).
    assert (EY : y = PNum z). { destruct u as [f|]; cbn in U, U2; [destruct U as (q1 & E1 & E2), U2 as (q2 & E3 & E4); congruence|congruence]. } rewrite S, EY. reflexivity.
  - subst d. cbn [mean] in M. injection M as <-. rewrite W. field. auto.
Qed.
(** CumPdf with numbers as values: the same as the Pdf with the differences *)
Fixpoint diffs (c : Q) (l : list (pval * Q)) : list (pval * Q) := match l with [] => [] | (x, c1) :: l => (x, c1 - c) :: diffs c1 l end.
Lemma diffs_nth : forall l c i x p, nth_error (diffs c l) i = Some (x, p) -> exists c1, nth_error l i = Some (x, c1) /\ p = c1 - prevs c i l /\ upto i (diffs c l) == prevs c i l - c.
Proof.
  induction l as [|[y c1] l IH]; intros c i x p N; [destruct i; discriminate|]. destruct i as [|i]; cbn [diffs nth_error] in N.
  - injection N as <- <-. exists c1. cbn [nth_error prevs]. rewrite upto_0. split; auto. split; auto. lra.
  - destruct (IH c1 i x p N) as (c2 & A & B & C). assert (I : (i < length l)%nat) by (apply nth_error_Some; congruence). exists c2. rewrite prevs_S by lia. repeat split; auto. cbn [diffs]. rewrite upto_S, C. lra.
Qed.
Lemma diffs_total : forall l c, total (diffs c l) == prevs c (length l) l - c.
Proof. induction l as [|[y c1] l IH]; intro c; unfold total in *; cbn [diffs map snd sumQ]; [cbn; lra|]. rewrite IH. cbn [length]. rewrite prevs_S by lia. lra. Qed.
Lemma cum_loop_mean : forall u l s s' sx r t sx', s == s' -> numbers l -> cum_loop u s (Some sx) l = DOk (r, t, sx') -> exists w, sx' = Some w /\ w == sx + weighted (fac u) (diffs s' l).
Proof.
  induction l as [|[x c] l IH]; intros s s' sx r t sx' SS NU H; cbn [cum_loop] in H; [injection H as <- <- <-; exists sx; split; auto; unfold weighted; cbn; lra|].
  destruct (NU x c (or_introl eq_refl)) as (q & ->). destruct (in_unit u (PNum q)) as [y|] eqn:U; [|discriminate]. apply in_unit_ok in U. destruct (unit_num u _ _ q U eq_refl) as (z & -> & Z). cbn [dbind mean_of_x oadd] in H.
  destruct (Qltb (c - s) 0); [discriminate|].
  destruct (cum_loop u (s + (c - s)) (Some (sx + z * (c - s))) l) as [[[r' t'] sx'']|] eqn:L; [|discriminate]. cbn [dbind] in H. injection H as <- <- <-.
  destruct (IH (s + (c - s)) c _ _ _ _ ltac:(lra) ltac:(intros a b I; apply (NU a b); cbn; auto) L) as (w & -> & W). exists w. split; auto. rewrite W. unfold weighted. cbn [diffs map sumQ num]. rewrite Z, SS. ring.
Qed.
Lemma mean_cum : forall l u d m, numbers l -> new_cum l u = DOk d -> mean d = DOk (Some m) -> mean_of d m.
Proof.
  intros l u d m NU H M. destruct (C45_cum_checked l u d H) as (LP & S). destruct (new_cum_ok l u d H) as (rr & t & sx & L & TZ & D & _). destruct (cum_loop_mean u l 0 0 0 rr t sx ltac:(reflexivity) NU L) as (w & -> & W).
  apply (cum_loop_ok u l 0 0) in L; [|reflexivity]. destruct L as (T & _). assert (TL : t == lastc l) by (rewrite T, prevs_0; reflexivity).
  apply (mean_steps d (fac u) t (diffs 0 l) m); [lra|rewrite diffs_total, <- T; ring| | |].
  - apply Forall_forall. intros [x p] I. apply In_nth_error in I. destruct I as (i & I). destruct (diffs_nth l 0 i x p I) as (c1 & A & -> & _). rewrite prevs_0. cbn. specialize (S i x c1 A). lra.
  - intros i x p N r R. destruct (diffs_nth l 0 i x p N) as (c1 & A & -> & UP). rewrite UP, prevs_0 in R. destruct (NU x c1 (nth_error_In _ _ A)) as (q & ->). assert (RT : r * t == r * lastc l) by (rewrite TL; ring).
    destruct (C45_cum_share Q one l u d r r r i (PNum q) c1 H eq_refl A ltac:(lra)) as (y & U & _). destruct (unit_num u _ _ q U eq_refl) as (z & -> & Z). exists z. split; auto. intros St G s s1 GR.
    destruct (C45_cum_share St G l u d s r s1 i (PNum q) c1 H GR A ltac:(lra)) as (y & U2 & SA).
    assert (EY : y = PNum z). { destruct u as [f|]; cbn in U, U2; [destruct U as (q1 & E1 & E2), U2 as (q2 & E3 & E4); congruence|congruence]. } rewrite SA, EY. reflexivity.
  - subst d. cbn [mean] in M. injection M as <-. rewrite W. field. auto.
Qed.
(** *** expressions *)
(** the distributions the theorem is about: Uniform, Cdf, Pdf with numbers as values and different probabilities, CumPdf with numbers as values, Constant without time unit,
    a Bounded without bounds, and sums, differences, products and quotients of these, numbers and (any) Constants *)
Inductive analysed : dist -> Prop :=
| an_uniform : forall lo hi f d, new_uni lo hi f = DOk d -> analysed d
| an_cdf : forall spec f d, 0 < f -> new_cdf spec f = DOk d -> analysed d
| an_pdf : forall l u d, numbers l -> Forall (fun xp => 0 <= snd xp) l -> new_pdf l u = DOk d -> all_equal (map snd l) = false -> analysed d
| an_cum : forall l u d, numbers l -> new_cum l u = DOk d -> analysed d
| an_const : forall v d, new_const v 1 = DOk d -> analysed d
| an_unbounded : forall d fail retries inclo inchi f b, analysed d -> new_bounded d None None fail retries inclo inchi f = DOk b -> analysed b
| an_expr : forall op a b, analysed_x a -> analysed_x b -> analysed (new_expr op a b)
with analysed_x : pval -> Prop :=
| ax_num : forall q, analysed_x (PNum q)
| ax_const : forall v f, analysed_x (PDist (DConst v f))
| ax_dist : forall d, analysed d -> analysed_x (PDist d).
Scheme analysed_ind2 := Minimality for analysed Sort Prop with analysed_x_ind2 := Minimality for analysed_x Sort Prop.
Definition mean_x (x : pval) : dres (option Q) := match x with PNum q => DOk (Some q) | POth _ => DEr DType | PDist d => mean d end.
Definition xmean_of (x : pval) (m : Q) : Prop := sampled (@sample_x) x m.
Lemma sampled_num : forall q m, q == m -> xmean_of (PNum q) m.
Proof. intros q m E. exists 0%nat, (fun _ => q). split; [|cbn; auto]. intros rs (L & _) St G s s1 F. destruct rs; [|discriminate]. inversion F; subst. cbn. exists q. split; auto. reflexivity. Qed.
Lemma sample_expr : forall St (G : rng St) op a b s v0 s1 v1 s2, sample_x G a s = (DOk v0, s1) -> sample_x G b s1 = (DOk v1, s2) -> sample G (DExpr op a b) s = (apply_op op v0 v1, s2).
Proof.
  intros St G op a b s v0 s1 v1 s2 A B. cbn [sample]. change (match a with PNum q => (DOk (VNum q), s) | POth i => (DOk (VOth i), s) | PDist d => sample G d s end) with (sample_x G a s). rewrite A.
  change (match b with PNum q => (DOk (VNum q), s1) | POth i => (DOk (VOth i), s1) | PDist d => sample G d s1 end) with (sample_x G b s1). rewrite B. reflexivity.
Qed.
(** sums and differences: the draws of the first operand come first *)
Lemma xmean_sum : forall op a b ma mb m k, xmean_of a ma -> xmean_of b mb -> (forall x y, exists z, apply_op op (VNum x) (VNum y) = DOk (VNum z) /\ z == x + k * y) -> m == ma + k * mb -> mean_of (DExpr op a b) m.
Proof.
  intros op a b ma mb m k (k1 & g1 & S1 & A1) (k2 & g2 & S2 & A2) OP M. exists (k1 + k2)%nat, (fun rs => 1 * g1 (firstn k1 rs) + k * g2 (skipn k1 rs)). split.
  - intros rs (L & F) St G s s1 FD. destruct (feed_app St G k1 rs s s1 FD) as (s2 & F1 & F2).
    destruct (S1 (firstn k1 rs)) with (St := St) (G := G) (s := s) (s1 := s2) as (q1 & Q1 & E1); auto.
    { split; [rewrite firstn_length; lia|]. apply Forall_forall. intros r R. rewrite Forall_forall in F. apply F. rewrite <- (firstn_skipn k1 rs). apply in_or_app. auto. }
    destruct (S2 (skipn k1 rs)) with (St := St) (G := G) (s := s2) (s1 := s1) as (q2 & Q2 & E2); auto.
    { split; [rewrite skipn_length; lia|]. apply Forall_forall. intros r R. rewrite Forall_forall in F. apply F. rewrite <- (firstn_skipn k1 rs). apply in_or_app. auto. }
    destruct (OP q1 q2) as (z & Z & EZ). exists z. split; [rewrite (sample_expr St G op a b s _ _ _ _ Q1 Q2), Z; reflexivity|]. rewrite EZ, E1, E2. ring.
  - eapply avg_proper; [apply (avg_sum k1 k2 g1 g2 ma mb 1 k); auto|]. rewrite M. ring.
Qed.
(** products with a number *)
Lemma xmean_scale : forall (flip : bool) op a c ma m k, xmean_of a ma -> (forall x, exists z, (if flip then apply_op op (VNum c) (VNum x) else apply_op op (VNum x) (VNum c)) = DOk (VNum z) /\ z == k * x) -> m == k * ma ->
  mean_of (if flip then DExpr op (PNum c) a else DExpr op a (PNum c)) m.
Proof.
  intros flip op a c ma m k (k1 & g1 & S1 & A1) OP M. exists k1, (fun rs => k * g1 rs + 0). split.
  - intros rs U St G s s1 FD. destruct (S1 rs U St G s s1 FD) as (q & Q1 & E). destruct (OP q) as (z & Z & EZ). exists z. split; [|rewrite EZ, E; ring]. destruct flip.
    + rewrite (sample_expr St G op (PNum c) a s (VNum c) s (VNum q) s1 eq_refl Q1), Z. reflexivity.
    + rewrite (sample_expr St G op a (PNum c) s (VNum q) s1 (VNum c) s1 Q1 eq_refl), Z. reflexivity.
  - eapply avg_proper; [apply avg_affine; exact A1|]. rewrite M. ring.
Qed.
Lemma mean_expr : forall op a b m, (forall m, mean_x (operand a) = DOk (Some m) -> xmean_of (operand a) m) -> (forall m, mean_x (operand b) = DOk (Some m) -> xmean_of (operand b) m) ->
  mean (new_expr op a b) = DOk (Some m) -> mean_of (new_expr op a b) m.
Proof.
  intros op a b m HA HB M. unfold new_expr in *. set (x := operand a) in *. set (y := operand b) in *. clearbody x y. cbn [mean] in M.
  change (dbind (mean_x x) (fun m0 => dbind (mean_x y) (fun m1 => m_op op (is_dist x) (is_dist y) m0 m1)) = DOk (Some m)) in M.
  destruct (mean_x x) as [mx|] eqn:MX; [|discriminate]. cbn [dbind] in M. destruct (mean_x y) as [my|] eqn:MY; [|discriminate]. cbn [dbind] in M.
  destruct op; cbn [m_op] in M.
  - destruct mx as [mx|]; [|discriminate]. destruct my as [my|]; [|discriminate]. injection M as <-. apply (xmean_sum OAdd x y mx my _ 1); auto; [|ring]. intros p q. cbn. eexists. split; [reflexivity|ring].
  - destruct mx as [mx|]; [|discriminate]. destruct my as [my|]; [|discriminate]. injection M as <-. apply (xmean_sum OSub x y mx my _ (- (1))); auto; [|ring]. intros p q. cbn. eexists. split; [reflexivity|ring].
  - destruct (is_dist x && is_dist y) eqn:D; [discriminate|]. destruct mx as [mx|]; [|discriminate]. destruct my as [my|]; [|discriminate]. injection M as <-.
    destruct x as [c| |d]; [|discriminate|].
    + cbn in MX. injection MX as <-. apply (xmean_scale true OMul y c my _ c); auto; [|reflexivity]. intro p. cbn. eexists. split; [reflexivity|ring].
    + destruct y as [c| |d']; [|discriminate|discriminate]. cbn in MY. injection MY as <-. apply (xmean_scale false OMul (PDist d) c mx _ c); auto; [|ring]. intro p. cbn. eexists. split; [reflexivity|ring].
  - destruct (is_dist y) eqn:D; [discriminate|]. destruct y as [c| |d]; [|discriminate|discriminate]. cbn in MY. injection MY as <-. destruct (Qeq_bool c 0) eqn:CZ; [discriminate|]. apply Qeq_bool_neq in CZ.
    destruct mx as [mx|]; [|discriminate]. injection M as <-. apply (xmean_scale false ODiv x c mx _ (1 / c)); auto; [|field; auto]. intro p. cbn. assert (E : Qeq_bool c 0 = false) by (apply Qeq_bool_false; auto). rewrite E.
    eexists. split; [reflexivity|field; auto].
  - discriminate.
Qed.
(** mean() is the average of the samples. *)
Theorem C48_mean : forall d m, analysed d -> mean d = DOk (Some m) -> mean_of d m.
Proof.
  intros d m A. revert m. apply (analysed_ind2 (fun d => forall m, mean d = DOk (Some m) -> mean_of d m) (fun x => forall m, mean_x (operand x) = DOk (Some m) -> xmean_of (operand x) m)) with (d := d); auto.
  - intros lo hi f d0 H m M. eapply mean_uni; eauto.
  - intros spec f d0 F H m M. eapply mean_cdf; eauto.
  - intros l u d0 NU NN H NE m M. eapply mean_pdf; eauto.
  - intros l u d0 NU H m M. eapply mean_cum; eauto.
  - intros v d0 H m M. injection H as <-. cbn in M. injection M as <-. exists 0%nat, (fun _ => v * 1). split; [|cbn; ring]. intros rs (L & _) St G s s1 F. destruct rs; [|discriminate]. inversion F; subst. cbn. eexists. split; reflexivity.
  - intros d0 fail retries inclo inchi f b _ IH H m M. injection H as <-. cbn [mean] in M. destruct (IH m M) as (k & g & S & AV). exists k, g. split; auto.
  - intros op a b _ IA _ IB m M. apply mean_expr; auto.
  - intros q m M. cbn in *. injection M as <-. apply sampled_num. reflexivity.
  - intros v f m M. cbn in *. injection M as <-. apply sampled_num. reflexivity.
  - intros d0 _ IH m M. assert (X : operand (PDist d0) = PDist d0 \/ exists v f, d0 = DConst v f) by (destruct d0; eauto). destruct X as [X|(v & f & ->)].
    + rewrite X in *. destruct (IH m M) as (k & g & S & AV). exists k, g. split; auto.
    + cbn in *. injection M as <-. apply sampled_num. reflexivity.
Qed.
Print Assumptions C48_mean.
