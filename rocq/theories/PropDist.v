(** Properties C45, C47, C49 of distributions; the Cdf (C46) and the time units and means (C48) are in PropDistB. *)
From Coq Require Import QArith Qabs Qround List Bool ZArith Lia Lqa.
From Verif Require Import Base Util Dist.
Import ListNotations.
Open Scope Q_scope.

(** What the Python library says about its random stream: random() is at least 0 and less than 1; randint(a, b) gives an integer between a and b; the square root of a number between 0 and 1 is
    between 0 and 1; sample(population, k) chooses k different positions. *)
Record rng_ok {St} (G : rng St) : Prop := {
  ok_random : forall s, 0 <= fst (gr_random G s) < 1;
  ok_randint : forall a b s, (a <= b)%Z -> (a <= fst (gr_randint G a b s) <= b)%Z;
  ok_sqrt : forall x, 0 <= x <= 1 -> 0 <= gr_sqrt G x <= 1;
  ok_pick : forall n k s, (k <= n)%nat -> length (fst (gr_pick G n k s)) = k /\ NoDup (fst (gr_pick G n k s)) /\ Forall (fun i => (i < n)%nat) (fst (gr_pick G n k s)) }.
(** a stream that has these properties: the state is the list of the draws to come *)
Definition tape : rng (list Q) :=
  let u := fun s : list Q => match s with [] => (0, []) | q :: s => ((if Qle_bool 0 q && Qltb q 1 then q else 0), s) end in
  mkRng u (fun l s => (1 / l, s)) (fun m _ s => (m, s)) (fun m _ s => (m, s)) (fun a b s => let '(r, s1) := u s in ((a + Qfloor (r * inject_Z (b - a + 1)))%Z, s1))
        (fun a b s => (a, s)) (fun a b s => (a * b, s)) (fun a b s => (a, s)) (fun x => x) (fun n k s => (seq 0 k, s)).
Lemma tape_ok : rng_ok tape.
Proof.
  assert (U : forall s : list Q, 0 <= fst (gr_random tape s) < 1).
  { intros [|q s]; cbn; [lra|]. destruct (Qle_bool 0 q && Qltb q 1) eqn:E; [|lra]. apply andb_true_iff in E. destruct E as [E F]. apply Qle_bool_iff in E. apply Qltb_iff in F. lra. }
  constructor; auto.
  - intros a b s AB. specialize (U s). cbn -[Qfloor Qmult inject_Z] in *. destruct (match s with [] => (0, []) | q :: s0 => (if Qle_bool 0 q && Qltb q 1 then q else 0, s0) end) as [r s1]. cbn -[Qfloor Qmult inject_Z] in *.
    assert (N : 0 < inject_Z (b - a + 1)) by (change 0 with (inject_Z 0); rewrite <- Zlt_Qlt; lia).
    assert (L : (0 <= Qfloor (r * inject_Z (b - a + 1)))%Z).
    { change 0%Z with (Qfloor 0). apply Qfloor_resp_le. apply Qmult_le_0_compat; lra. }
    assert (M : inject_Z (Qfloor (r * inject_Z (b - a + 1))) < inject_Z (b - a + 1)).
    { eapply Qle_lt_trans; [apply Qfloor_le|]. assert (0 < (1 - r) * inject_Z (b - a + 1)) by (apply Qmult_lt_0_compat; lra). lra. }
    rewrite <- Zlt_Qlt in M. lia.
  - intros n k s KN. cbn. rewrite seq_length. repeat split; auto using seq_NoDup. apply Forall_forall. intros i I. apply in_seq in I. lia.
Qed.

(** ** C45: a Pdf, Pmf or CumPdf gives one of its values, each for as many draws as its probability says *)
(** the sum of the first i probabilities *)
Definition upto (i : nat) (l : list (pval * Q)) : Q := sumQ (map snd (firstn i l)).
(** the sum of all probabilities *)
Definition total (l : list (pval * Q)) : Q := sumQ (map snd l).
Lemma upto_0 : forall l, upto 0 l = 0. Proof. reflexivity. Qed.
Lemma upto_S : forall i x p l, upto (S i) ((x, p) :: l) = p + upto i l. Proof. reflexivity. Qed.

(** walking through the list of cumulative values *)
Fixpoint walk {St} (G : rng St) (r : Q) (s1 : St) (l : list (pval * Q)) : dres val * St :=
  match l with
  | [] => (DOk VNone, s1)
  | (x, c) :: l => if Qle_bool r c then sample_x G x s1 else walk G r s1 l
  end.
Lemma sample_walk_pdf : forall St (G : rng St) l m s r s1, gr_random G s = (r, s1) -> 0 < r -> sample G (DPdf l m false) s = walk G r s1 l.
Proof.
  intros St G l m s r s1 R R0. cbn [sample]. rewrite R. assert (N : Qle_bool r 0 = false) by (apply Qle_bool_false_iff; auto). rewrite N.
  induction l as [|[x c] l IH]; auto. cbn [walk]. destruct (Qle_bool r c); auto.
Qed.
Lemma sample_walk_cum : forall St (G : rng St) l m s r s1, gr_random G s = (r, s1) -> 0 < r -> sample G (DCum l m) s = walk G r s1 l.
Proof.
  intros St G l m s r s1 R R0. cbn [sample]. rewrite R. assert (N : Qle_bool r 0 = false) by (apply Qle_bool_false_iff; auto). rewrite N.
  induction l as [|[x c] l IH]; auto. cbn [walk]. destruct (Qle_bool r c); auto.
Qed.
Lemma walk_finds : forall St (G : rng St) r s1 l i x c, nth_error l i = Some (x, c) -> r <= c -> (forall j y d, (j < i)%nat -> nth_error l j = Some (y, d) -> d < r) -> walk G r s1 l = sample_x G x s1.
Proof.
  intros St G r s1 l i. revert l. induction i as [|i IH]; intros [|[y d] l] x c N RC B; try discriminate.
  - cbn in N. injection N as -> ->. cbn [walk]. assert (E : Qle_bool r c = true) by (apply Qle_bool_iff; auto). rewrite E. auto.
  - cbn [walk]. assert (E : Qle_bool r d = false) by (apply Qle_bool_false_iff; apply (B 0%nat y d); auto; lia). rewrite E. apply (IH l x c); auto.
    intros j z e J NJ. apply (B (S j) z e); auto. lia.
Qed.
(** the values in the time unit *)
Definition unit_of (u : option Q) (x y : pval) : Prop := match u with None => y = x | Some f => exists q, x = PNum q /\ y = PNum (q * f) end.
Lemma in_unit_ok : forall u x y, in_unit u x = DOk y -> unit_of u x y.
Proof. intros [f|] x y H; cbn in *; [destruct x; inversion H; eauto|congruence]. Qed.
Lemma pdf_loop_ok : forall u l s sx r t sx', pdf_loop u s sx l = DOk (r, t, sx') ->
  t == s + total l /\ length r = length l /\ forall i x p, nth_error l i = Some (x, p) -> exists y c, nth_error r i = Some (y, c) /\ unit_of u x y /\ c == s + upto (S i) l.
Proof.
  induction l as [|[x p] l IH]; intros s sx r t sx' H; cbn [pdf_loop] in H.
  - injection H as <- <- <-. cbn. split; [lra|]. split; auto. intros [|i] ? ?; discriminate.
  - destruct (in_unit u x) as [x'|] eqn:U; [|discriminate]. cbn [dbind] in H. destruct (mean_of_x x') as [m|]; [|discriminate]. cbn [dbind] in H.
    destruct (pdf_loop u (s + p) (oadd sx m p) l) as [[[r' t'] sx'']|] eqn:L; [|discriminate]. cbn [dbind] in H. injection H as <- <- <-.
    apply IH in L. destruct L as (T & LEN & N). unfold total in *. cbn [map snd sumQ]. split; [rewrite T; lra|]. split; [cbn; auto|].
    intros [|i] y q NI; cbn [nth_error] in *.
    + injection NI as <- <-. exists x', (s + p). split; auto. split; [apply in_unit_ok; auto|]. unfold upto. cbn. lra.
    + destruct (N i y q NI) as (z & c & A & B & C). exists z, c. split; auto. split; auto. rewrite upto_S, C. lra.
Qed.
Lemma new_pdf_ok : forall l u d, new_pdf l u = DOk d -> exists rr t sx, pdf_loop u 0 (Some 0) l = DOk (rr, t, sx) /\ ~ t == 0 /\ d = DPdf (scale_cum rr t) (scale_mean sx t) (all_equal (map snd l)) /\ l <> [].
Proof.
  intros l u d H. unfold new_pdf in H. destruct (pdf_loop u 0 (Some 0) l) as [[[rr t] sx]|] eqn:L; [|destruct l; discriminate]. exists rr, t, sx. split; auto. destruct l as [|xp l0]; [discriminate|].
  cbn [dbind] in H. destruct (Qeq_bool t 0) eqn:TZ; [discriminate|]. apply Qeq_bool_neq in TZ. split; auto. inversion H. split; auto. discriminate.
Qed.
Lemma total_nonneg : forall l, Forall (fun xp => 0 <= snd xp) l -> 0 <= total l.
Proof. induction l as [|[x p] l IH]; intro F; unfold total in *; cbn; [lra|]. inversion F; subst. cbn in *. specialize (IH H2). lra. Qed.
Lemma upto_mono : forall l i j, Forall (fun xp => 0 <= snd xp) l -> (i <= j)%nat -> upto i l <= upto j l.
Proof.
  induction l as [|[x p] l IH]; intros i j F IJ; [rewrite (firstn_nil i) || unfold upto; rewrite !firstn_nil; lra|]. inversion F; subst. destruct i; [destruct j; [lra|]|destruct j; [lia|]].
  - rewrite upto_0, upto_S. cbn in H1. pose proof (IH 0%nat j H2 ltac:(lia)) as X. rewrite upto_0 in X. lra.
  - rewrite !upto_S. pose proof (IH i j H2 ltac:(lia)). lra.
Qed.
Lemma upto_total : forall l i, (length l <= i)%nat -> upto i l = total l.
Proof. intros l i H. unfold upto, total. rewrite firstn_all2; auto. Qed.
Lemma nth_scaled : forall l s i x c, nth_error l i = Some (x, c) -> nth_error (scale_cum l s) i = Some (x, c / s).
Proof. intros l s i x c H. unfold scale_cum. rewrite nth_error_map, H. reflexivity. Qed.
Lemma div_le : forall r c t, 0 < t -> (r <= c / t <-> r * t <= c).
Proof. intros r c t T. split; intro H; [|apply Qle_shift_div_l; auto]. assert (E : c == c / t * t) by (field; lra). rewrite E. apply Qmult_le_compat_r; lra. Qed.
Lemma div_lt : forall r c t, 0 < t -> (c / t < r <-> c < r * t).
Proof.
  intros r c t T. split; intro H; [|apply Qlt_shift_div_r; auto]. assert (E : c == c / t * t) by (field; lra). rewrite E. apply Qmult_lt_compat_r; auto.
Qed.
(** In the part of the draws between the sum of the probabilities before a value and the sum up to and including it the outcome is that value (a sample of it, if it is a distribution).
    The part has the length probability / sum of the probabilities. *)
Theorem C45_share : forall St (G : rng St) l u d s r s1 i x p, Forall (fun xp => 0 <= snd xp) l -> new_pdf l u = DOk d -> all_equal (map snd l) = false ->
  gr_random G s = (r, s1) -> nth_error l i = Some (x, p) -> upto i l < r * total l <= upto i l + p -> exists y, unit_of u x y /\ sample G d s = sample_x G y s1.
Proof.
  intros St G l u d s r s1 i x p NN H NE R NI [A B]. destruct (new_pdf_ok l u d H) as (rr & t & sx & L & TZ & -> & _). rewrite NE.
  apply pdf_loop_ok in L. destruct L as (T & LEN & N). pose proof (total_nonneg l NN) as TN. assert (TP : 0 < t) by lra.
  destruct (N i x p NI) as (y & c & NR & U & C).
  assert (UI : upto (S i) l == upto i l + p).
  { clear - NI. revert NI. generalize l. clear l. induction i as [|i IH]; intros [|[y q] l] NI; try discriminate; cbn [nth_error] in NI; [injection NI as -> ->; unfold upto; cbn; lra|].
    rewrite !upto_S, (IH l NI). lra. }
  pose proof (upto_mono l 0 i NN ltac:(lia)) as U0. rewrite upto_0 in U0. assert (RT : r * t == r * total l) by (rewrite T; ring).
  assert (R0 : 0 < r). { destruct (Qlt_le_dec 0 r) as [|RN]; auto. assert (0 <= - r * total l) by (apply Qmult_le_0_compat; lra). lra. }
  exists y. split; auto. rewrite (sample_walk_pdf _ G _ _ s r s1 R R0). apply (walk_finds _ G r s1 _ i y (c / t)).
  - apply nth_scaled; auto.
  - apply div_le; auto. lra.
  - intros j z e J NJ. unfold scale_cum in NJ. rewrite nth_error_map in NJ. destruct (nth_error rr j) as [[z' e']|] eqn:NRJ; [|discriminate]. injection NJ as <- <-.
    destruct (nth_error l j) as [[w q]|] eqn:NLJ; [|apply nth_error_None in NLJ; assert (X : nth_error rr j <> None) by congruence; apply nth_error_Some in X; lia].
    destruct (N j w q NLJ) as (y2 & c2 & A2 & _ & C2). rewrite NRJ in A2. injection A2 as -> ->. apply div_lt; auto. pose proof (upto_mono l (S j) i NN ltac:(lia)). lra.
Qed.
(** every draw greater than 0 is in one of these parts *)
Lemma parts : forall l z, 0 < z -> z <= total l -> exists i x p, nth_error l i = Some (x, p) /\ upto i l < z <= upto i l + p.
Proof.
  induction l as [|[x p] l IH]; intros z Z T; unfold total in *; cbn [map snd sumQ] in *; [lra|].
  destruct (Qlt_le_dec p z) as [L|L]; [|exists 0%nat, x, p; split; auto; rewrite upto_0; lra].
  destruct (IH (z - p) ltac:(lra) ltac:(lra)) as (i & y & q & N & A). exists (S i), y, q. split; auto. rewrite upto_S. lra.
Qed.
(** So for every draw greater than 0 the outcome is one of the values, and one with a positive probability. *)
Theorem C45_value : forall St (G : rng St) l u d s r s1, Forall (fun xp => 0 <= snd xp) l -> new_pdf l u = DOk d -> all_equal (map snd l) = false ->
  gr_random G s = (r, s1) -> 0 < r -> r < 1 -> exists i x p y, nth_error l i = Some (x, p) /\ 0 < p /\ unit_of u x y /\ sample G d s = sample_x G y s1.
Proof.
  intros St G l u d s r s1 NN H NE R R0 R1.
  assert (TP : 0 < total l).
  { destruct (new_pdf_ok l u d H) as (rr & t & sx & L & TZ & _). apply pdf_loop_ok in L. destruct L as (T & _). pose proof (total_nonneg l NN). lra. }
  assert (Z0 : 0 < r * total l) by (apply Qmult_lt_0_compat; lra). assert (Z1 : 0 < (1 - r) * total l) by (apply Qmult_lt_0_compat; lra).
  destruct (parts l (r * total l) Z0 ltac:(lra)) as (i & x & p & N & A). destruct (C45_share St G l u d s r s1 i x p NN H NE R N A) as (y & U & S). exists i, x, p, y. repeat split; auto. lra.
Qed.
(** With equal probabilities the position is left to the sample function of the random stream: the outcome is one of the values. *)
Theorem C45_equal : forall St (G : rng St) l u d s, rng_ok G -> new_pdf l u = DOk d -> all_equal (map snd l) = true -> (forall x p, In (x, p) l -> is_dist x = false) ->
  exists i x p y s1, nth_error l i = Some (x, p) /\ unit_of u x y /\ sample G d s = (DOk (as_is y), s1) /\ gr_pick G (length l) 1 s = ([i], s1).
Proof.
  intros St G l u d s OK H EQ ND. destruct (new_pdf_ok l u d H) as (rr & t & sx & L & TZ & -> & NIL). rewrite EQ.
  apply pdf_loop_ok in L. destruct L as (T & LEN & N). cbn [sample]. unfold scale_cum. rewrite map_length, LEN.
  destruct (ok_pick G OK (length l) 1 s ltac:(destruct l; [congruence|cbn; lia])) as (P1 & P2 & P3). destruct (gr_pick G (length l) 1 s) as [is s1] eqn:GP. cbn [fst] in *.
  destruct is as [|i [|? ?]]; try discriminate. inversion P3; subst. destruct (nth_error l i) as [[x p]|] eqn:NI; [|apply nth_error_None in NI; lia].
  destruct (N i x p NI) as (y & c & NR & U & C). exists i, x, p, y, s1. repeat split; auto. rewrite nth_error_map, NR. reflexivity.
Qed.
(** sample(n) of a Pdf with equal probabilities: as many outcomes as asked for, or as there are values, and no position twice *)
Theorem C45_without_replacement : forall St (G : rng St) l u d n s, rng_ok G -> new_pdf l u = DOk d -> all_equal (map snd l) = true -> (0 <= n)%Z -> (forall x p, In (x, p) l -> is_dist x = false) ->
  exists is vs s1, sample_n G d n s = (DOk vs, s1) /\ NoDup is /\ length is = Nat.min (Z.to_nat n) (length l) /\
    Forall2 (fun i v => exists x p y, nth_error l i = Some (x, p) /\ unit_of u x y /\ v = as_is y) is vs.
Proof.
  intros St G l u d n s OK H EQ N0 ND. destruct (new_pdf_ok l u d H) as (rr & t & sx & L & TZ & -> & NIL). rewrite EQ.
  apply pdf_loop_ok in L. destruct L as (T & LEN & N). cbn [sample_n]. assert (NZ : (n <? 0)%Z = false) by (apply Z.ltb_ge; auto). rewrite NZ. unfold scale_cum. rewrite map_length, LEN.
  destruct (ok_pick G OK (length l) (Nat.min (Z.to_nat n) (length l)) s ltac:(lia)) as (P1 & P2 & P3). destruct (gr_pick G (length l) (Nat.min (Z.to_nat n) (length l)) s) as [is s1] eqn:GP. cbn [fst] in *.
  exists is.
  assert (X : forall is, Forall (fun i => (i < length l)%nat) is -> exists vs, sample_list G (map (fun '(x, c) => (x, c / t)) rr) is s1 = (DOk vs, s1) /\ Forall2 (fun i v => exists x p y, nth_error l i = Some (x, p) /\ unit_of u x y /\ v = as_is y) is vs).
  { clear - N ND. induction is as [|i is IH]; intro F; [exists []; split; auto|]. inversion F; subst. destruct (IH H2) as (vs & S1 & F2).
    destruct (nth_error l i) as [[x p]|] eqn:NI; [|apply nth_error_None in NI; lia]. destruct (N i x p NI) as (y & c & NR & U & C). exists (as_is y :: vs). cbn [sample_list].
    rewrite nth_error_map, NR. cbn [option_map]. assert (NDY : is_dist y = false). { apply nth_error_In in NI. specialize (ND x p NI). destruct u as [f|]; cbn in U; [destruct U as (q & _ & ->); auto|subst; auto]. }
    assert (SX : sample_x G y s1 = (DOk (as_is y), s1)) by (destruct y; [reflexivity|reflexivity|discriminate]). rewrite SX, S1. split; auto. constructor; auto. exists x, p, y. auto. }
  destruct (X is P3) as (vs & S1 & F2). exists vs, s1. auto.
Qed.

(** *** CumPdf: the values with their cumulative probabilities *)
(** the cumulative probability of the value before *)
Definition prevc (i : nat) (l : list (pval * Q)) : Q := match i with O => 0 | S j => match nth_error l j with Some (_, c) => c | None => 0 end end.
(** the last cumulative probability *)
Definition lastc (l : list (pval * Q)) : Q := prevc (length l) l.
(** the cumulative probability before the i-th value, that of the value before the first one is s *)
Definition prevs (s : Q) (i : nat) (l : list (pval * Q)) : Q := match i with O => s | S j => match nth_error l j with Some (_, c) => c | None => s end end.
Lemma prevs_S : forall s x c l i, (i <= length l)%nat -> prevs s (S i) ((x, c) :: l) = prevs c i l.
Proof. intros s x c l [|i] I; cbn; auto. destruct (nth_error l i) as [[? ?]|] eqn:N; auto. apply nth_error_None in N. lia. Qed.
Lemma cum_loop_ok : forall u l s s' sx r t sx', s == s' -> cum_loop u s sx l = DOk (r, t, sx') ->
  t == prevs s' (length l) l /\ length r = length l /\ forall i x c, nth_error l i = Some (x, c) -> prevs s' i l <= c /\ exists y c', nth_error r i = Some (y, c') /\ unit_of u x y /\ c' == c.
Proof.
  induction l as [|[x c] l IH]; intros s s' sx r t sx' SS H; cbn [cum_loop] in H.
  - injection H as <- <- <-. cbn. split; [lra|]. split; auto. intros [|i] ? ?; discriminate.
  - destruct (in_unit u x) as [x'|] eqn:U; [|discriminate]. cbn [dbind] in H. destruct (Qltb (c - s) 0) eqn:LT; [discriminate|]. apply Qltb_false_iff in LT.
    destruct (mean_of_x x') as [m|]; [|discriminate]. cbn [dbind] in H.
    destruct (cum_loop u (s + (c - s)) (oadd sx m (c - s)) l) as [[[r' t'] sx'']|] eqn:L; [|discriminate]. cbn [dbind] in H. injection H as <- <- <-.
    apply (IH _ c) in L; [|lra]. destruct L as (T & LEN & N). cbn [length]. rewrite prevs_S by lia. split; auto. split; [cbn; auto|].
    intros [|i] y q NI; cbn [nth_error] in *.
    + injection NI as <- <-. cbn [prevs]. split; [lra|]. exists x', (s + (c - s)). split; auto. split; [apply in_unit_ok; auto|]. lra.
    + assert (I : (i < length l)%nat) by (apply nth_error_Some; congruence). rewrite prevs_S by lia. apply N. auto.
Qed.
Lemma prevs_0 : forall i l, prevs 0 i l = prevc i l.
Proof. intros [|i] l; auto. Qed.
(** the cumulative probabilities do not decrease *)
Lemma cum_sorted : forall l, (forall i x c, nth_error l i = Some (x, c) -> prevc i l <= c) -> forall j i, (j <= i <= length l)%nat -> prevc j l <= prevc i l.
Proof.
  intros l H j i. induction i as [|i IH]; intro I; [replace j with 0%nat by lia; lra|]. destruct (Nat.eq_dec j (S i)) as [->|]; [lra|]. specialize (IH ltac:(lia)).
  destruct (nth_error l i) as [[x c]|] eqn:N; [|apply nth_error_None in N; lia]. specialize (H i x c N). cbn [prevc]. rewrite N. lra.
Qed.
Lemma new_cum_ok : forall l u d, new_cum l u = DOk d -> exists rr t sx, cum_loop u 0 (Some 0) l = DOk (rr, t, sx) /\ ~ t == 0 /\ d = DCum (scale_cum rr t) (scale_mean sx t) /\ l <> [].
Proof.
  intros l u d H. unfold new_cum in H. destruct (cum_loop u 0 (Some 0) l) as [[[rr t] sx]|] eqn:L; [|destruct l; discriminate]. exists rr, t, sx. split; auto. destruct l as [|xp l0]; [discriminate|].
  cbn [dbind] in H. destruct (Qeq_bool t 0) eqn:TZ; [discriminate|]. apply Qeq_bool_neq in TZ. split; auto. inversion H. split; auto. discriminate.
Qed.
(** what __init__ has checked *)
Theorem C45_cum_checked : forall l u d, new_cum l u = DOk d -> 0 < lastc l /\ forall i x c, nth_error l i = Some (x, c) -> prevc i l <= c.
Proof.
  intros l u d H. destruct (new_cum_ok l u d H) as (rr & t & sx & L & TZ & _ & _). apply (cum_loop_ok u l 0 0) in L; [|reflexivity]. destruct L as (T & _ & N). rewrite prevs_0 in T.
  assert (S : forall i x c, nth_error l i = Some (x, c) -> prevc i l <= c) by (intros i x c NI; destruct (N i x c NI) as (A & _); rewrite prevs_0 in A; auto).
  split; auto. pose proof (cum_sorted l S 0 (length l) ltac:(lia)) as X. cbn [prevc] in X. unfold lastc. lra.
Qed.
Theorem C45_cum_share : forall St (G : rng St) l u d s r s1 i x c, new_cum l u = DOk d -> gr_random G s = (r, s1) -> nth_error l i = Some (x, c) ->
  prevc i l < r * lastc l <= c -> exists y, unit_of u x y /\ sample G d s = sample_x G y s1.
Proof.
  intros St G l u d s r s1 i x c H R NI [A B]. destruct (C45_cum_checked l u d H) as (LP & S). destruct (new_cum_ok l u d H) as (rr & t & sx & L & TZ & -> & _).
  apply (cum_loop_ok u l 0 0) in L; [|reflexivity]. destruct L as (T & LEN & N). rewrite prevs_0 in T. fold (lastc l) in T. assert (TP : 0 < t) by lra.
  destruct (N i x c NI) as (_ & y & c' & NR & U & C). exists y. split; auto.
  assert (I : (i < length l)%nat) by (apply nth_error_Some; congruence). pose proof (cum_sorted l S 0 i ltac:(lia)) as P0. cbn [prevc] in P0.
  assert (RT : r * t == r * lastc l) by (rewrite T; ring).
  assert (R0 : 0 < r). { destruct (Qlt_le_dec 0 r) as [|RN]; auto. assert (0 <= - r * lastc l) by (apply Qmult_le_0_compat; lra). lra. }
  rewrite (sample_walk_cum _ G _ _ s r s1 R R0). apply (walk_finds _ G r s1 _ i y (c' / t)).
  - apply nth_scaled; auto.
  - apply div_le; auto. lra.
  - intros j z e J NJ. unfold scale_cum in NJ. rewrite nth_error_map in NJ. destruct (nth_error rr j) as [[z' e']|] eqn:NRJ; [|discriminate]. injection NJ as <- <-.
    destruct (nth_error l j) as [[w q]|] eqn:NLJ; [|apply nth_error_None in NLJ; assert (X : nth_error rr j <> None) by congruence; apply nth_error_Some in X; lia].
    destruct (N j w q NLJ) as (_ & y2 & c2 & A2 & _ & C2). rewrite NRJ in A2. injection A2 as -> ->. apply div_lt; auto.
    pose proof (cum_sorted l S (Datatypes.S j) i ltac:(lia)) as M. cbn [prevc] in M. rewrite NLJ in M. lra.
Qed.
Lemma cum_parts : forall l z k, (k <= length l)%nat -> 0 < z -> z <= prevc k l -> exists i x c, nth_error l i = Some (x, c) /\ prevc i l < z <= c.
Proof.
  intros l z k. induction k as [|k IH]; intros K Z P; [cbn in P; lra|]. cbn [prevc] in P. destruct (nth_error l k) as [[x c]|] eqn:N; [|apply nth_error_None in N; lia].
  destruct (Qlt_le_dec (prevc k l) z) as [L|L]; [exists k, x, c; auto|]. apply IH; auto. lia.
Qed.
Theorem C45_cum_value : forall St (G : rng St) l u d s r s1, new_cum l u = DOk d -> gr_random G s = (r, s1) -> 0 < r -> r < 1 ->
  exists i x c y, nth_error l i = Some (x, c) /\ 0 < c - prevc i l /\ unit_of u x y /\ sample G d s = sample_x G y s1.
Proof.
  intros St G l u d s r s1 H R R0 R1. destruct (C45_cum_checked l u d H) as (LP & S). assert (Z0 : 0 < r * lastc l) by (apply Qmult_lt_0_compat; lra).
  assert (Z1 : 0 < (1 - r) * lastc l) by (apply Qmult_lt_0_compat; lra). destruct (cum_parts l (r * lastc l) (length l) (le_n _) Z0 ltac:(unfold lastc in *; lra)) as (i & x & c & N & A).
  destruct (C45_cum_share St G l u d s r s1 i x c H R N A) as (y & U & SA). exists i, x, c, y. repeat split; auto. lra.
Qed.
(** The full statement is for all draws, so also for 0: then the outcome is 0, whether that is one of the values or not. *)
Theorem C45_zero_refuted : exists St (G : rng St) l d s v s1, rng_ok G /\ Forall (fun xp => 0 < snd xp) l /\ new_pdf l None = DOk d /\ sample G d s = (DOk v, s1) /\ forall x p, In (x, p) l -> as_is x <> v.
Proof.
  exists (list Q), tape, [(PNum 5, 1); (PNum 7, 3)]. eexists. exists [0]. exists (VNum 0), []. split; [apply tape_ok|]. split; [repeat constructor; cbn; lra|]. split; [vm_compute; reflexivity|].
  split; [vm_compute; reflexivity|]. cbn. intros x p [E|[E|[]]]; injection E as <- <-; discriminate.
Qed.
Theorem C45_cum_zero_refuted : exists St (G : rng St) l d s v s1, rng_ok G /\ new_cum l None = DOk d /\ sample G d s = (DOk v, s1) /\ forall x p, In (x, p) l -> as_is x <> v.
Proof.
  exists (list Q), tape, [(PNum 5, 1); (PNum 7, 3)]. eexists. exists [0]. exists (VNum 0), []. split; [apply tape_ok|]. split; [vm_compute; reflexivity|].
  split; [vm_compute; reflexivity|]. cbn. intros x p [E|[E|[]]]; injection E as <- <-; discriminate.
Qed.
(** With equal probabilities a value that is a distribution is given as it is, not sampled. *)
Theorem C45_unsampled_refuted : exists St (G : rng St) l d s d1 s1, rng_ok G /\ new_pdf l None = DOk d /\ sample G d s = (DOk (VObj d1), s1).
Proof.
  exists (list Q), tape, [(PDist (DUni 1 2 1), 1); (PDist (DUni 3 4 1), 1)]. eexists. exists []. do 2 eexists. split; [apply tape_ok|]. split; [vm_compute; reflexivity|]. vm_compute. reflexivity.
Qed.
(** A value that is a distribution without the attribute _mean, an expression for example, can not be used at all. *)
Theorem C45_expression_refuted : exists l, Forall (fun xp => 0 < snd xp) l /\ new_pdf l None = DEr DAttr /\ new_cum l None = DEr DAttr.
Proof. exists [(PDist (new_expr OAdd (PDist (DUni 1 2 1)) (PNum 1)), 1)]. split; [repeat constructor; cbn; lra|]. split; vm_compute; reflexivity. Qed.
(** Cases: three values, the second of which is a distribution, the third one has probability 0; draws 1/4 and 3/4 *)
Definition case_l : list (pval * Q) := [(PNum 5, 1); (PDist (DUni 1 2 1), 1); (POth 8, 0)].
Definition case_d : dist := match new_pdf case_l None with DOk d => d | _ => DConst 0 1 end.
Example C45_case : new_pdf case_l None = DOk case_d /\ all_equal (map snd case_l) = false /\ Forall (fun xp => 0 <= snd xp) case_l /\
  sample tape case_d [1 # 4] = (DOk (VNum 5), []) /\ fst (sample tape case_d [3 # 4; 1 # 2]) = DOk (VNum ((1 + (2 - 1) * (1 # 2)) * 1)) /\ upto 1 case_l < (3 # 4) * total case_l <= upto 1 case_l + 1.
Proof. split; [reflexivity|]. split; [reflexivity|]. split; [repeat constructor; cbn; lra|]. split; [reflexivity|]. split; [reflexivity|]. unfold upto, total; cbn; lra. Qed.
Example C45_case_equal : exists d, new_pdf [(PNum 1, 2); (PNum 6, 2); (POth 4, 2)] (Some 60) = DEr DType /\ new_pdf [(PNum 1, 2); (PNum 6, 2)] (Some 60) = DOk d /\ fst (sample_n tape d 9 []) = DOk [VNum 60; VNum 360].
Proof. eexists. split; [reflexivity|]. split; [vm_compute; reflexivity|]. vm_compute. reflexivity. Qed.
Example C45_case_cum : exists d, new_cum [(PNum 1, 2); (PNum 6, 5); (POth 4, 10)] None = DOk d /\ sample tape d [3 # 10] = (DOk (VNum 6), []) /\ sample tape d [9 # 10] = (DOk (VOth 4), []) /\
  new_cum [(PNum 1, 2); (PNum 6, 1)] None = DEr DValue.
Proof. eexists. split; [vm_compute; reflexivity|]. vm_compute. auto. Qed.

(** ** C47: Bounded *)
(** the bounds in words: at least (more than) the lowerbound and at most (less than) the upperbound, both in the time unit *)
Definition in_bounds (lo hi : option Q) (inclo inchi : bool) (f q : Q) : Prop :=
  (forall l, lo = Some l -> if inclo then l * f <= q else l * f < q) /\ (forall h, hi = Some h -> if inchi then q <= h * f else q < h * f).
(** accepted: in the bounds, or no number *)
Definition acceptable (lo hi : option Q) (inclo inchi : bool) (f : Q) (v : val) : Prop := match v with VNum q => in_bounds lo hi inclo inchi f q | _ => True end.
(** successive samples *)
Inductive draws {St} (G : rng St) (d : dist) : St -> list val -> St -> Prop :=
| draws_none : forall s, draws G d s [] s
| draws_one : forall s v s1 vs s2, sample G d s = (DOk v, s1) -> draws G d s1 vs s2 -> draws G d s (v :: vs) s2.
Lemma within_iff : forall lo hi inclo inchi f q, within (option_map (fun q => q * f) lo) (option_map (fun q => q * f) hi) inclo inchi q = true <-> in_bounds lo hi inclo inchi f q.
Proof.
  intros lo hi inclo inchi f q. unfold within, in_bounds. rewrite andb_true_iff.
  assert (A : (match option_map (fun q => q * f) lo with None => true | Some l => if inclo then Qle_bool l q else Qltb l q end) = true <-> (forall l, lo = Some l -> if inclo then l * f <= q else l * f < q)).
  { destruct lo as [l|]; cbn [option_map]; [|split; [intros _ ? ?; discriminate|auto]]. split.
    - intros H l' E. injection E as <-. destruct inclo; [apply Qle_bool_iff; auto|apply Qltb_iff; auto].
    - intro H. specialize (H l eq_refl). destruct inclo; [apply Qle_bool_iff; auto|apply Qltb_iff; auto]. }
  assert (B : (match option_map (fun q => q * f) hi with None => true | Some h => if inchi then Qle_bool q h else Qltb q h end) = true <-> (forall h, hi = Some h -> if inchi then q <= h * f else q < h * f)).
  { destruct hi as [h|]; cbn [option_map]; [|split; [intros _ ? ?; discriminate|auto]]. split.
    - intros H h' E. injection E as <-. destruct inchi; [apply Qle_bool_iff; auto|apply Qltb_iff; auto].
    - intro H. specialize (H h eq_refl). destruct inchi; [apply Qle_bool_iff; auto|apply Qltb_iff; auto]. }
  rewrite A, B. tauto.
Qed.
(** the loop *)
Fixpoint tries {St} (G : rng St) (d : dist) (ok : Q -> bool) (fail : Q) (n : nat) (s : St) : dres val * St :=
  match n with
  | O => (DOk (VNum fail), s)
  | S n => let '(v, s1) := sample G d s in match v with DEr e => (DEr e, s1) | DOk (VNum q) => if ok q then (DOk (VNum q), s1) else tries G d ok fail n s1 | DOk v => (DOk v, s1) end
  end.
Lemma bounded_tries : forall St (G : rng St) d lo hi inclo inchi fail n s, ~ (lo = None /\ hi = None) -> sample G (DBounded d lo hi inclo inchi fail n) s = tries G d (within lo hi inclo inchi) fail n s.
Proof.
  intros St G d lo hi inclo inchi fail n s N. assert (X : forall n s, (fix try (n : nat) (s : St) : dres val * St :=
             match n with
             | O => (DOk (VNum fail), s)
             | S n => let '(v, s1) := sample G d s in
                 match v with
                 | DEr e => (DEr e, s1)
                 | DOk (VNum q) => if within lo hi inclo inchi q then (DOk (VNum q), s1) else try n s1
                 | DOk v => (DOk v, s1)
                 end
             end) n s = tries G d (within lo hi inclo inchi) fail n s).
  { clear. induction n as [|n IH]; intro s; auto. cbn [tries]. destruct (sample G d s) as [[[q| | |]|] s1]; auto. destruct (within lo hi inclo inchi q); auto. }
  cbn [sample]. destruct lo as [l|], hi as [h|]; try apply X. exfalso. auto.
Qed.
(** the value when no sample is acceptable: the given one, or else the lowerbound, or else the upperbound *)
Definition last_resort (lo hi fail : option Q) (f : Q) : val := VNum (match fail with Some v => v | None => match lo, hi with Some l, _ => l * f | None, Some h => h * f | None, None => 0 end end).
(** The outcome is the first acceptable one of at most number_of_retries samples; only if none of exactly that many samples is acceptable it is the fail_value. *)
Theorem C47_bounded : forall St (G : rng St) d lo hi fail retries inclo inchi f b s v s1, new_bounded d lo hi fail retries inclo inchi f = DOk b -> ~ (lo = None /\ hi = None) -> sample G b s = (DOk v, s1) ->
  let n := match retries with None => 100%nat | Some n => n end in
  exists rejected, Forall (fun w => ~ acceptable lo hi inclo inchi f w) rejected /\
    ((draws G d s (rejected ++ [v]) s1 /\ acceptable lo hi inclo inchi f v /\ (length rejected < n)%nat) \/ (draws G d s rejected s1 /\ v = last_resort lo hi fail f /\ length rejected = n)).
Proof.
  intros St G d lo hi fail retries inclo inchi f b s v s1 H NB SA n. unfold new_bounded in H.
  destruct (match option_map (fun q => q * f) lo, option_map (fun q => q * f) hi with Some l, Some h => Qltb h l | _, _ => false end); [discriminate|]. injection H as <-.
  rewrite bounded_tries in SA by (intros [A B]; apply NB; destruct lo, hi; discriminate || auto).
  assert (FV : VNum (match fail with Some v => v | None => match option_map (fun q => q * f) lo, option_map (fun q => q * f) hi with Some l, _ => l | None, Some h => h | None, None => 0 end end) = last_resort lo hi fail f)
    by (unfold last_resort; destruct fail, lo, hi; reflexivity).
  fold n in SA. rewrite <- FV. revert SA.
  generalize (match fail with Some v => v | None => match option_map (fun q => q * f) lo, option_map (fun q => q * f) hi with Some l, _ => l | None, Some h => h | None, None => 0 end end). intros fv SA.
  clear FV. revert s SA. induction n as [|n IH]; intros s SA; cbn [tries] in SA.
  - injection SA as <- <-. exists []. split; auto. right. split; [constructor|]. auto.
  - destruct (sample G d s) as [[w|] s2] eqn:SD; [|discriminate].
    assert (STOP : forall (E : DOk w = DOk v) (E2 : s2 = s1), acceptable lo hi inclo inchi f v -> exists rejected, Forall (fun w => ~ acceptable lo hi inclo inchi f w) rejected /\
      ((draws G d s (rejected ++ [v]) s1 /\ acceptable lo hi inclo inchi f v /\ (length rejected < S n)%nat) \/ (draws G d s rejected s1 /\ v = VNum fv /\ length rejected = S n))).
    { intros E E2 AC. injection E as ->. subst s2. exists []. split; auto. left. cbn. split; [|split; auto; lia]. econstructor; eauto. constructor. }
    destruct w as [q|i|d'|]; try (injection SA as E E2; apply STOP; [congruence|auto|subst v; exact Logic.I]).
    destruct (within (option_map (fun q => q * f) lo) (option_map (fun q => q * f) hi) inclo inchi q) eqn:W.
    + injection SA as E E2. apply STOP; [congruence|auto|]. subst v. cbn. apply within_iff. auto.
    + destruct (IH s2 SA) as (rej & F & C). exists (VNum q :: rej). split; [constructor; auto; cbn; rewrite <- within_iff; congruence|].
      destruct C as [(D & AC & LN)|(D & E & LN)]; [left|right]; (split; [cbn; econstructor; eauto|split; auto; cbn; lia]).
Qed.
(** Without bounds every sample is passed on. *)
Theorem C47_unbounded : forall St (G : rng St) d fail retries inclo inchi f b s, new_bounded d None None fail retries inclo inchi f = DOk b -> sample G b s = sample G d s.
Proof. intros St G d fail retries inclo inchi f b s H. injection H as <-. reflexivity. Qed.
(** The full statement, that a number outside the bounds is never given, holds if fail_value is acceptable; the default one is not with include_lowerbound=False. *)
Theorem C47_default_refuted : exists St (G : rng St) d lo hi b s q s1, rng_ok G /\ new_bounded d lo hi None None false true 1 = DOk b /\ sample G b s = (DOk (VNum q), s1) /\ ~ in_bounds lo hi false true 1 q.
Proof.
  exists (list Q), tape, (DConst 0 1), (Some 2), None. eexists. exists [], (2 * 1), []. split; [apply tape_ok|]. split; [reflexivity|]. split; [vm_compute; reflexivity|].
  intros [A _]. specialize (A 2 eq_refl). lra.
Qed.
(** A given fail_value is not converted to the time unit (here of 60), the bounds are; so a fail_value equal to the lowerbound is not the lowerbound. *)
Theorem C47_fail_unit_refuted : exists St (G : rng St) d b s q s1, new_bounded d (Some 1) (Some 2) (Some 1) None true true 60 = DOk b /\ sample G b s = (DOk (VNum q), s1) /\ ~ in_bounds (Some 1) (Some 2) true true 60 q.
Proof.
  exists (list Q), tape, (DConst 0 1). eexists. exists [], 1, []. split; [reflexivity|]. split; [vm_compute; reflexivity|]. intros [A _]. specialize (A 1 eq_refl). lra.
Qed.
Lemma inb_12 : forall q, in_bounds (Some 1) (Some 2) true false 1 q <-> 1 <= q < 2.
Proof. intro q. unfold in_bounds. split; [intros [A B]; specialize (A _ eq_refl); specialize (B _ eq_refl); lra|]. intro H. split; intros x E; injection E as <-; lra. Qed.
(** Case: the third sample, 3/2, is the first in the bounds *)
Example C47_case : exists b, new_bounded (DUni 0 4 1) (Some 1) (Some 2) None (Some 3%nat) true false 1 = DOk b /\ fst (sample tape b [1 # 8; 1 # 2; 3 # 8]) = DOk (VNum (0 + (4 - 0) * (3 # 8)  * 1)) /\
  fst (sample tape b [1 # 8; 1 # 2; 7 # 8; 3 # 8]) = DOk (VNum (1 * 1)).
Proof. eexists. split; [reflexivity|]. split; vm_compute; reflexivity. Qed.

(** ** C49: samples are in the range asked for *)
Theorem C49_uniform : forall St (G : rng St) lo hi f d s, rng_ok G -> 0 <= f -> new_uni lo (Some hi) f = DOk d -> exists x s1, sample G d s = (DOk (VNum x), s1) /\ lo * f <= x <= hi * f.
Proof.
  intros St G lo hi f d s OK F H. unfold new_uni in H. destruct (Qltb hi lo) eqn:L; [discriminate|]. apply Qltb_false_iff in L. injection H as <-. cbn [sample]. unfold py_uniform.
  pose proof (ok_random G OK s) as R. destruct (gr_random G s) as [r s1]. cbn [fst] in R. do 2 eexists. split; [reflexivity|].
  assert (A : 0 <= (hi - lo) * r) by (apply Qmult_le_0_compat; lra). assert (B : 0 <= (hi - lo) * (1 - r)) by (apply Qmult_le_0_compat; lra).
  split; apply Qmult_le_compat_r; lra.
Qed.
(** less than the upperbound, unless it is equal to the lowerbound *)
Theorem C49_uniform_open : forall St (G : rng St) lo hi f d s, rng_ok G -> 0 < f -> lo < hi -> new_uni lo (Some hi) f = DOk d -> exists x s1, sample G d s = (DOk (VNum x), s1) /\ lo * f <= x < hi * f.
Proof.
  intros St G lo hi f d s OK F LH H. unfold new_uni in H. destruct (Qltb hi lo) eqn:L; [discriminate|]. injection H as <-. cbn [sample]. unfold py_uniform.
  pose proof (ok_random G OK s) as R. destruct (gr_random G s) as [r s1]. cbn [fst] in R. do 2 eexists. split; [reflexivity|].
  assert (A : 0 <= (hi - lo) * r) by (apply Qmult_le_0_compat; lra). assert (B : 0 < (hi - lo) * (1 - r)) by (apply Qmult_lt_0_compat; lra).
  split; [apply Qmult_le_compat_r|apply Qmult_lt_compat_r]; lra.
Qed.
Lemma is_int_floor : forall q, is_int q = true -> q == inject_Z (Qfloor q).
Proof. intros q H. apply Qeq_bool_iff. auto. Qed.
Theorem C49_int : forall St (G : rng St) lo hi f d s, rng_ok G -> new_int lo (Some hi) f = DOk d -> exists k s1, sample G d s = (DOk (VNum (inject_Z k * f)), s1) /\ lo <= inject_Z k <= hi.
Proof.
  intros St G lo hi f d s OK H. unfold new_int in H. destruct (Qltb hi lo) eqn:L; [discriminate|]. apply Qltb_false_iff in L. destruct (is_int lo) eqn:IL; [|discriminate]. destruct (is_int hi) eqn:IH; [|discriminate].
  injection H as <-. cbn [sample]. apply is_int_floor in IL. apply is_int_floor in IH. assert (LE : (Qfloor lo <= Qfloor hi)%Z) by (apply Qfloor_resp_le; auto).
  pose proof (ok_randint G OK (Qfloor lo) (Qfloor hi) s LE) as R. destruct (gr_randint G (Qfloor lo) (Qfloor hi) s) as [k s1]. cbn [fst] in R. exists k, s1. split; auto.
  rewrite IL, IH. rewrite <- !Zle_Qle. auto.
Qed.
Lemma unit_mul : forall a b, 0 <= a <= 1 -> 0 <= b <= 1 -> 0 <= a * b <= 1.
Proof. intros a b A B. assert (0 <= a * b) by (apply Qmult_le_0_compat; lra). assert (0 <= a * (1 - b)) by (apply Qmult_le_0_compat; lra). lra. Qed.
Theorem C49_triangular : forall St (G : rng St) low high mode f d s, rng_ok G -> 0 <= f -> new_tri low (Some high) mode f = DOk d -> exists x s1, sample G d s = (DOk (VNum x), s1) /\ low * f <= x <= high * f.
Proof.
  intros St G low high mode f d s OK F H. unfold new_tri in H. set (m := match mode with None => (high + low) / 2 | Some m => m end) in *. clearbody m.
  destruct (Qltb high low) eqn:L1; [discriminate|]. destruct (Qltb m low) eqn:L2; [discriminate|]. destruct (Qltb high m) eqn:L3; [discriminate|]. apply Qltb_false_iff in L1, L2, L3. injection H as <-.
  cbn [sample]. unfold py_triangular. pose proof (ok_random G OK s) as R. destruct (gr_random G s) as [u s1]. cbn [fst] in R.
  destruct (Qeq_bool high low) eqn:E.
  - apply Qeq_bool_iff in E. do 2 eexists. split; [reflexivity|]. split; apply Qmult_le_compat_r; lra.
  - apply Qeq_bool_neq in E. assert (LT : low < high) by lra.
    assert (C : 0 <= (m - low) / (high - low) <= 1). { split; [apply Qle_shift_div_l; lra|apply Qle_shift_div_r; lra]. }
    set (c := (m - low) / (high - low)) in *. clearbody c.
    destruct (Qltb c u).
    + pose proof (ok_sqrt G OK ((1 - u) * (1 - c)) ltac:(apply unit_mul; lra)) as S. set (z := gr_sqrt G ((1 - u) * (1 - c))) in *. clearbody z.
      assert (0 <= (high - low) * z) by (apply Qmult_le_0_compat; lra). assert (0 <= (high - low) * (1 - z)) by (apply Qmult_le_0_compat; lra).
      do 2 eexists. split; [reflexivity|]. split; apply Qmult_le_compat_r; lra.
    + pose proof (ok_sqrt G OK (u * c) ltac:(apply unit_mul; lra)) as S. set (z := gr_sqrt G (u * c)) in *. clearbody z.
      assert (0 <= (high - low) * z) by (apply Qmult_le_0_compat; lra). assert (0 <= (high - low) * (1 - z)) by (apply Qmult_le_0_compat; lra).
      do 2 eexists. split; [reflexivity|]. split; apply Qmult_le_compat_r; lra.
Qed.
Theorem C49_constant : forall St (G : rng St) v f d s, new_const v f = DOk d -> sample G d s = (DOk (VNum (v * f)), s).
Proof. intros St G v f d s H. injection H as <-. reflexivity. Qed.
(** one bound only: that value *)
Theorem C49_one_bound : forall St (G : rng St) v f d s, rng_ok G -> (new_uni v None f = DOk d \/ new_tri v None None f = DOk d \/ new_int v None f = DOk d) -> exists x s1, sample G d s = (DOk (VNum x), s1) /\ x == v * f.
Proof.
  intros St G v f d s OK [H|[H|H]].
  - unfold new_uni in H. destruct (Qltb v v); [discriminate|]. injection H as <-. cbn [sample]. unfold py_uniform. destruct (gr_random G s) as [r s1]. do 2 eexists. split; [reflexivity|]. ring.
  - unfold new_tri in H. destruct (Qltb v v); [discriminate|]. destruct (Qltb ((v + v) / 2) v); [discriminate|]. destruct (Qltb v ((v + v) / 2)); [discriminate|]. injection H as <-. cbn [sample]. unfold py_triangular.
    destruct (gr_random G s) as [r s1]. assert (E : Qeq_bool v v = true) by (apply Qeq_bool_iff; reflexivity). rewrite E. do 2 eexists. split; [reflexivity|]. ring.
  - destruct (C49_int St G v v f d s OK) as (k & s1 & S & B); [unfold new_int in *; auto|]. exists (inject_Z k * f), s1. split; auto. assert (E : inject_Z k == v) by lra. rewrite E. reflexivity.
Qed.
Example C49_case : exists d1 d2 d3, new_uni 2 (Some 6) 60 = DOk d1 /\ new_int 1 (Some 6) 1 = DOk d2 /\ new_tri 0 (Some 4) (Some 1) 1 = DOk d3 /\ fst (sample tape d1 [1 # 2]) = DOk (VNum ((2 + (6 - 2) * (1 # 2)) * 60)) /\
  fst (sample tape d2 [1 # 2]) = DOk (VNum (inject_Z 4 * 1)) /\ new_int (3 # 2) (Some 6) 1 = DEr DType /\ new_uni 6 (Some 2) 1 = DEr DValue.
Proof. do 3 eexists. repeat (split; [vm_compute; reflexivity|]). vm_compute. reflexivity. Qed.
Print Assumptions C45_share.
Print Assumptions C45_value.
Print Assumptions C45_equal.
Print Assumptions C45_without_replacement.
Print Assumptions C45_cum_checked.
Print Assumptions C45_cum_share.
Print Assumptions C45_cum_value.
Print Assumptions C45_zero_refuted.
Print Assumptions C45_cum_zero_refuted.
Print Assumptions C45_unsampled_refuted.
Print Assumptions C45_expression_refuted.
Print Assumptions C47_bounded.
Print Assumptions C47_unbounded.
Print Assumptions C47_default_refuted.
Print Assumptions C47_fail_unit_refuted.
Print Assumptions C49_uniform.
Print Assumptions C49_uniform_open.
Print Assumptions C49_int.
Print Assumptions C49_triangular.
Print Assumptions C49_constant.
Print Assumptions C49_one_bound.
