(** Property C48, continued: IntUniform, Pdf with equal probabilities, time units, and where the statement fails. *)
From Coq Require Import QArith Qabs Qround Qminmax List Bool ZArith Lia Lqa.
From Verif Require Import Base Util Dist PropUtil PropDist PropDistB PropDistC.
Import ListNotations.
Open Scope Q_scope.

(** The mean of an IntUniform is the sum of the integers of the range over their number. *)
Definition range_sum (lo : Z) (n : nat) : Q := sumQ (map (fun i => inject_Z (lo + Z.of_nat i)) (seq 0 n)).
Lemma range_sum_S : forall lo n, range_sum lo (S n) == range_sum lo n + inject_Z (lo + Z.of_nat n).
Proof. intros lo n. unfold range_sum. rewrite seq_S, map_app, sumQ_app. cbn. ring. Qed.
Theorem C48_int : forall lo hi f d m, new_int lo (Some hi) f = DOk d -> mean d = DOk (Some m) -> let n := Z.to_nat (Qfloor hi - Qfloor lo + 1) in (0 < n)%nat /\ m == range_sum (Qfloor lo) n / inject_Z (Z.of_nat n) * f.
Proof.
  intros lo hi f d m H M. unfold new_int in H. destruct (Qltb hi lo) eqn:L; [discriminate|]. apply Qltb_false_iff in L. destruct (is_int lo) eqn:IL; [|discriminate]. destruct (is_int hi) eqn:IH; [|discriminate].
  injection H as <-. cbn [mean] in M. injection M as <-. apply is_int_floor in IL. apply is_int_floor in IH. assert (LE : (Qfloor lo <= Qfloor hi)%Z) by (apply Qfloor_resp_le; auto).
  set (a := Qfloor lo) in *. set (b := Qfloor hi) in *. clearbody a b. cbn zeta. remember (Z.to_nat (b - a + 1)) as n eqn:N. split; [lia|].
  assert (B : b = (a + Z.of_nat n - 1)%Z) by lia.
  assert (S : forall k, range_sum a k == inject_Z (Z.of_nat k) * (inject_Z a + (inject_Z (Z.of_nat k) - 1) / 2)).
  { clear. induction k as [|k IH]; [unfold range_sum; cbn; ring|]. rewrite range_sum_S, IH, Nat2Z.inj_succ. unfold Z.succ. rewrite !inject_Z_plus. change (inject_Z 1) with 1. field. }
  assert (NP : 0 < inject_Z (Z.of_nat n)) by (change 0 with (inject_Z 0); rewrite <- Zlt_Qlt; lia).
  rewrite IL, IH, B, S. unfold Z.sub. rewrite !inject_Z_plus. change (inject_Z (-(1))) with (- (1)). field. lra.
Qed.
(** With equal probabilities the mean of a Pdf is the sum of the values over their number. *)
Theorem C48_equal : forall l u d m, numbers l -> new_pdf l u = DOk d -> all_equal (map snd l) = true -> mean d = DOk (Some m) -> m == sumQ (map (fun xp => num (fst xp) * fac u) l) / inject_Z (Z.of_nat (length l)).
Proof.
  intros l u d m NU H EQ M. destruct (new_pdf_ok l u d H) as (rr & t & sx & L & TZ & -> & NIL). destruct (pdf_loop_mean u l 0 0 rr t sx NU L) as (w & -> & W). destruct (pdf_loop_ok _ _ _ _ _ _ _ L) as (T & _).
  cbn [mean scale_mean] in M. injection M as <-. destruct l as [|[x p] l0]; [congruence|]. set (l := (x, p) :: l0) in *.
  assert (P : forall y q, In (y, q) l -> q == p).
  { assert (X : forall (l0 : list (pval * Q)) x p, all_equal (map snd ((x, p) :: l0)) = true -> forall y q, In (y, q) ((x, p) :: l0) -> q == p).
    { clear. induction l0 as [|[y q] l0 IH]; intros x p E a b I; [destruct I as [I|[]]; injection I as <- <-; reflexivity|]. cbn [map all_equal snd] in E. apply andb_true_iff in E. destruct E as [E1 E2]. apply Qeq_bool_iff in E1.
      destruct I as [I|I]; [injection I as <- <-; reflexivity|]. rewrite (IH y q E2 a b I), E1. reflexivity. }
    intros y q I. apply (X l0 x p EQ y q I). }
  assert (TT : total l == inject_Z (Z.of_nat (length l)) * p /\ weighted (fac u) l == sumQ (map (fun xp => num (fst xp) * fac u) l) * p).
  { clear - P. clearbody l. clear l0. induction l as [|[y q] l IH]; unfold total, weighted in *; cbn [map snd fst sumQ length] in *; [split; cbn; ring|]. destruct IH as [A B]; [intros z r I; apply (P z r); cbn; auto|].
    rewrite A, B, (P y q (or_introl eq_refl)), Nat2Z.inj_succ. unfold Z.succ. rewrite inject_Z_plus. split; ring. }
  destruct TT as [TT WW]. assert (TP : t == inject_Z (Z.of_nat (length l)) * p) by (rewrite T, TT; ring).
  assert (NP : ~ inject_Z (Z.of_nat (length l)) == 0) by (intro Z; apply TZ; rewrite TP, Z; ring). assert (PP : ~ p == 0) by (intro Z; apply TZ; rewrite TP, Z; ring).
  rewrite W, WW, TP. field. auto.
Qed.

(** ** Time units *)
(** the arguments of a distribution with a time unit; f: the factor of the time unit *)
Inductive spec :=
| UExpo (mean rate : option Q) | UNormal (mean : Q) (sd cov : option Q) (use_gauss : bool) | UInt (lo : Q) (hi : option Q) | UUni (lo : Q) (hi : option Q) | UTri (low : Q) (high mode : option Q)
| UWeib (scale shape gm : Q) | UGamma (shape : Q) (scale rate : option Q) | UCdf (l : list (Q * Q)) | UPdf (l : list (pval * Q)) | UCum (l : list (pval * Q)) | UConst (v : Q) | UErlang (shape : Q) (rate scale : option Q).
Definition build (sp : spec) (f : Q) : dres dist :=
  match sp with
  | UExpo m r => new_expo m r f | UNormal m sd cov g => new_normal m sd cov g f | UInt lo hi => new_int lo hi f | UUni lo hi => new_uni lo hi f | UTri low high mode => new_tri low high mode f
  | UWeib scale shape gm => new_weib scale shape gm f | UGamma shape scale rate => new_gamma shape scale rate f | UCdf l => new_cdf l f | UPdf l => new_pdf l (Some f) | UCum l => new_cum l (Some f)
  | UConst v => new_const v f | UErlang shape rate scale => new_erlang shape rate scale f
  end.
(** an outcome in the unit, and the same one converted *)
Definition converted (f : Q) (a b : dres val) : Prop := match a, b with DOk (VNum x), DOk (VNum y) => y == x * f | _, _ => a = b end.
Definition erlang (sp : spec) : bool := match sp with UErlang _ _ _ => true | _ => false end.
Definition constant (sp : spec) : bool := match sp with UConst _ => true | _ => false end.
(** values of a Pdf in a time unit *)
Definition pair_conv (f : Q) (a b : pval * Q) : Prop := snd a = snd b /\ exists x y, fst a = PNum x /\ fst b = PNum y /\ y == x * f.
Lemma pdf_loop_conv : forall f l s sx sx1 r t w r1 t1 w1, sx == sx1 * f -> pdf_loop (Some f) s (Some sx) l = DOk (r, t, w) -> pdf_loop (Some 1) s (Some sx1) l = DOk (r1, t1, w1) ->
  t = t1 /\ Forall2 (pair_conv f) r1 r /\ exists m m1, w = Some m /\ w1 = Some m1 /\ m == m1 * f.
Proof.
  induction l as [|[x p] l IH]; intros s sx sx1 r t w r1 t1 w1 SX H H1; cbn [pdf_loop] in H, H1.
  - injection H as <- <- <-. injection H1 as <- <- <-. split; auto. split; [constructor|]. exists sx, sx1. auto.
  - destruct x as [q| |]; cbn [in_unit dbind mean_of_x oadd] in H, H1; try discriminate.
    destruct (pdf_loop (Some f) (s + p) (Some (sx + q * f * p)) l) as [[[r' t'] w']|] eqn:L; [|discriminate]. cbn [dbind] in H. injection H as <- <- <-.
    destruct (pdf_loop (Some 1) (s + p) (Some (sx1 + q * 1 * p)) l) as [[[r1' t1'] w1']|] eqn:L1; [|discriminate]. cbn [dbind] in H1. injection H1 as <- <- <-.
    destruct (IH _ (sx + q * f * p) (sx1 + q * 1 * p) _ _ _ _ _ _ ltac:(rewrite SX; ring) L L1) as (A & B & C). split; auto. split; auto. constructor; auto. split; auto. exists (q * 1), (q * f). cbn. repeat split. ring.
Qed.
Lemma cum_loop_conv : forall f l s sx sx1 r t w r1 t1 w1, sx == sx1 * f -> cum_loop (Some f) s (Some sx) l = DOk (r, t, w) -> cum_loop (Some 1) s (Some sx1) l = DOk (r1, t1, w1) ->
  t = t1 /\ Forall2 (pair_conv f) r1 r /\ exists m m1, w = Some m /\ w1 = Some m1 /\ m == m1 * f.
Proof.
  induction l as [|[x c] l IH]; intros s sx sx1 r t w r1 t1 w1 SX H H1; cbn [cum_loop] in H, H1.
  - injection H as <- <- <-. injection H1 as <- <- <-. split; auto. split; [constructor|]. exists sx, sx1. auto.
  - destruct x as [q| |]; cbn [in_unit dbind mean_of_x oadd] in H, H1; try discriminate. destruct (Qltb (c - s) 0); [discriminate|].
    destruct (cum_loop (Some f) (s + (c - s)) (Some (sx + q * f * (c - s))) l) as [[[r' t'] w']|] eqn:L; [|discriminate]. cbn [dbind] in H. injection H as <- <- <-.
    destruct (cum_loop (Some 1) (s + (c - s)) (Some (sx1 + q * 1 * (c - s))) l) as [[[r1' t1'] w1']|] eqn:L1; [|discriminate]. cbn [dbind] in H1. injection H1 as <- <- <-.
    destruct (IH _ (sx + q * f * (c - s)) (sx1 + q * 1 * (c - s)) _ _ _ _ _ _ ltac:(rewrite SX; ring) L L1) as (A & B & C). split; auto. split; auto. constructor; auto. split; auto. exists (q * 1), (q * f). cbn. repeat split. ring.
Qed.
Lemma scale_conv : forall f t r1 r, Forall2 (pair_conv f) r1 r -> Forall2 (pair_conv f) (scale_cum r1 t) (scale_cum r t).
Proof. intros f t r1 r H. induction H as [|[x1 c1] [x c] r1 r (E & P) F IH]; cbn in *; constructor; auto. split; cbn; [rewrite E; auto|auto]. Qed.
Lemma walk_conv : forall St (G : rng St) f r s l1 l, Forall2 (pair_conv f) l1 l -> snd (walk G r s l1) = snd (walk G r s l) /\ converted f (fst (walk G r s l1)) (fst (walk G r s l)).
Proof.
  intros St G f r s l1 l H. induction H as [|[x1 c1] [x c] l1 l (E & a & b & A & B & C) F IH]; cbn [walk]; [cbn; auto|]. cbn in E, A, B. subst. destruct (Qle_bool r c); auto.
Qed.
Lemma forall2_nth : forall A B (P : A -> B -> Prop) l l' i, Forall2 P l l' -> match nth_error l i, nth_error l' i with Some a, Some b => P a b | None, None => True | _, _ => False end.
Proof. intros A B P l l' i H. revert i. induction H; intros [|i]; cbn; auto. apply IHForall2. Qed.
Lemma f2_length : forall A B (P : A -> B -> Prop) l l', Forall2 P l l' -> length l = length l'.
Proof. intros A B P l l' H. induction H; cbn; auto. Qed.
(** A sample in a time unit is the sample without it times the factor of the unit. *)
Theorem C48_unit_sample : forall sp f d d1 St (G : rng St) s, rng_ok G -> 0 < f -> erlang sp = false -> build sp f = DOk d -> build sp 1 = DOk d1 ->
  snd (sample G d1 s) = snd (sample G d s) /\ converted f (fst (sample G d1 s)) (fst (sample G d s)).
Proof.
  intros sp f d d1 St G s OK F NE B B1.
  assert (NUM : forall (p : Q * St), snd (let '(x, s1) := p in (DOk (VNum (x * 1)), s1)) = snd (let '(x, s1) := p in (DOk (VNum (x * f)), s1)) /\ converted f (fst (let '(x, s1) := p in (DOk (VNum (x * 1)), s1))) (fst (let '(x, s1) := p in (DOk (VNum (x * f)), s1)))).
  { intros [x s1]. cbn. split; auto. ring. }
  destruct sp; cbn [build erlang] in *; try discriminate.
  - unfold new_expo in *. destruct mean as [m|], rate as [r|]; try discriminate; [destruct (Qle_bool m 0)|destruct (Qle_bool r 0)]; try discriminate; injection B as <-; injection B1 as <-; cbn [sample]; apply NUM.
  - unfold new_normal in *. destruct (match sd, cov with None, None => DOk 0 | None, Some c => if Qeq_bool mean 0 then DEr DValue else DOk (c * mean) | Some s, None => DOk s | Some _, Some _ => DEr DType end) as [z|]; [|discriminate].
    cbn [dbind] in *. destruct (Qltb z 0); [discriminate|]. injection B as <-; injection B1 as <-; cbn [sample]; apply NUM.
  - unfold new_int in *. destruct (Qltb _ lo); [discriminate|]. destruct (is_int lo); [|discriminate]. cbn [negb] in *. destruct (is_int _); [|discriminate]. injection B as <-; injection B1 as <-; cbn [sample].
    destruct (gr_randint G _ _ s) as [k s1]. cbn. split; auto. ring.
  - unfold new_uni in *. destruct (Qltb _ lo); [discriminate|]. injection B as <-; injection B1 as <-; cbn [sample]; apply NUM.
  - unfold new_tri in *. destruct (Qltb _ low); [discriminate|]. destruct (Qltb _ low); [discriminate|]. destruct (Qltb _ _); [discriminate|]. injection B as <-; injection B1 as <-; cbn [sample]; apply NUM.
  - unfold new_weib in *. destruct (Qle_bool shape 0); [discriminate|]. injection B as <-; injection B1 as <-; cbn [sample]; apply NUM.
  - unfold new_gamma in *. destruct (Qle_bool shape 0); [discriminate|]. destruct scale as [m|], rate as [r|]; try discriminate; [destruct (Qle_bool m 0)|destruct (Qle_bool r 0)]; try discriminate; injection B as <-; injection B1 as <-; cbn [sample]; apply NUM.
  - destruct (C46_checked l f d F B) as (TP & (x00 & c00 & N00 & Z0) & INC). pose proof (ok_random G OK s) as R. destruct (gr_random G s) as [r s1] eqn:GR. cbn [fst] in R.
    destruct (cdf_part l (r * topc l)) as (k & x0 & c0 & x1 & c1 & N0 & N1 & BB).
    + exists x00, c00. split; auto. assert (0 <= r * topc l) by (apply Qmult_le_0_compat; lra). lra.
    + assert (0 < (1 - r) * topc l) by (apply Qmult_lt_0_compat; lra). lra.
    + destruct (C46_linear St G l f d s r s1 k x0 c0 x1 c1 F B GR N0 N1 BB) as (z & S & E). destruct (C46_linear St G l 1 d1 s r s1 k x0 c0 x1 c1 ltac:(lra) B1 GR N0 N1 BB) as (z1 & S1 & E1).
      rewrite S, S1. cbn. split; auto. rewrite E, E1. field. lra.
  - destruct (new_pdf_ok l (Some f) d B) as (rr & t & sx & L & TZ & -> & _). destruct (new_pdf_ok l (Some 1) d1 B1) as (rr1 & t1 & sx1 & L1 & _ & -> & _).
    destruct (pdf_loop_conv f l 0 0 0 _ _ _ _ _ _ ltac:(ring) L L1) as (<- & F2 & _). apply (scale_conv f t) in F2. destruct (all_equal (map snd l)).
    + cbn [sample]. rewrite (f2_length _ _ _ _ _ F2). destruct (gr_pick G (length (scale_cum rr t)) 1 s) as [[|i is] s1]; [cbn; auto|]. cbn [fst snd]. split; auto. pose proof (forall2_nth _ _ _ _ _ i F2) as N.
      destruct (nth_error (scale_cum rr1 t) i) as [[x1 c1]|], (nth_error (scale_cum rr t) i) as [[x c]|]; try contradiction; [|reflexivity]. destruct N as (_ & a & b & A & BB & C). cbn in A, BB. subst. cbn. auto.
    + destruct (gr_random G s) as [r s1] eqn:GR. destruct (Qlt_le_dec 0 r) as [R|R].
      * rewrite (sample_walk_pdf _ G _ _ s r s1 GR R), (sample_walk_pdf _ G _ _ s r s1 GR R). apply walk_conv. auto.
      * cbn [sample]. rewrite GR. assert (E : Qle_bool r 0 = true) by (apply Qle_bool_iff; auto). rewrite E. cbn. split; auto. ring.
  - destruct (new_cum_ok l (Some f) d B) as (rr & t & sx & L & TZ & -> & _). destruct (new_cum_ok l (Some 1) d1 B1) as (rr1 & t1 & sx1 & L1 & _ & -> & _).
    destruct (cum_loop_conv f l 0 0 0 _ _ _ _ _ _ ltac:(ring) L L1) as (<- & F2 & _). apply (scale_conv f t) in F2. destruct (gr_random G s) as [r s1] eqn:GR. destruct (Qlt_le_dec 0 r) as [R|R].
    + rewrite (sample_walk_cum _ G _ _ s r s1 GR R), (sample_walk_cum _ G _ _ s r s1 GR R). apply walk_conv. auto.
    + cbn [sample]. rewrite GR. assert (E : Qle_bool r 0 = true) by (apply Qle_bool_iff; auto). rewrite E. cbn. split; auto. ring.
  - injection B as <-; injection B1 as <-; cbn. split; auto. ring.
Qed.
Lemma cdf_mean_conv : forall f t l, ~ t == 0 -> cdf_mean (map (fun '(x, c) => (x * f, c / t)) l) == cdf_mean (map (fun '(x, c) => (x * 1, c / t)) l) * f.
Proof.
  intros f t l T. induction l as [|[x c] [|[x' c'] l] IH]; cbn [map cdf_mean]; try ring. cbn [map cdf_mean] in IH. rewrite IH. field. auto.
Qed.
(** The mean in a time unit is the mean without it times the factor of the unit. *)
Theorem C48_unit_mean : forall sp f d d1 m m1, 0 < f -> erlang sp = false -> constant sp = false -> build sp f = DOk d -> build sp 1 = DOk d1 -> mean d = DOk (Some m) -> mean d1 = DOk (Some m1) -> m == m1 * f.
Proof.
  intros sp f d d1 m m1 F NE NC B B1 M M1. destruct sp; cbn [build erlang constant] in *; try discriminate.
  - unfold new_expo in *. destruct mean as [q|], rate as [r|]; try discriminate; [destruct (Qle_bool q 0)|destruct (Qle_bool r 0)]; try discriminate; injection B as <-; injection B1 as <-; injection M as <-; injection M1 as <-; ring.
  - unfold new_normal in *. destruct (match sd, cov with None, None => DOk 0 | None, Some c => if Qeq_bool mean 0 then DEr DValue else DOk (c * mean) | Some s, None => DOk s | Some _, Some _ => DEr DType end) as [z|]; [|discriminate].
    cbn [dbind] in *. destruct (Qltb z 0); [discriminate|]. injection B as <-; injection B1 as <-; injection M as <-; injection M1 as <-; ring.
  - unfold new_int in *. destruct (Qltb _ lo); [discriminate|]. destruct (is_int lo); [|discriminate]. cbn [negb] in *. destruct (is_int _); [|discriminate]. injection B as <-; injection B1 as <-; injection M as <-; injection M1 as <-; ring.
  - unfold new_uni in *. destruct (Qltb _ lo); [discriminate|]. injection B as <-; injection B1 as <-; injection M as <-; injection M1 as <-; ring.
  - unfold new_tri in *. destruct (Qltb _ low); [discriminate|]. destruct (Qltb _ low); [discriminate|]. destruct (Qltb _ _); [discriminate|]. injection B as <-; injection B1 as <-; injection M as <-; injection M1 as <-; ring.
  - unfold new_weib in *. destruct (Qle_bool shape 0); [discriminate|]. injection B as <-; injection B1 as <-; injection M as <-; injection M1 as <-; ring.
  - unfold new_gamma in *. destruct (Qle_bool shape 0); [discriminate|]. destruct scale as [q|], rate as [r|]; try discriminate; [destruct (Qle_bool q 0)|destruct (Qle_bool r 0)]; try discriminate; injection B as <-; injection B1 as <-; injection M as <-; injection M1 as <-; ring.
  - destruct (C46_checked l f d F B) as (TP & _). pose proof (new_cdf_ok l f d F B) as D. pose proof (new_cdf_ok l 1 d1 ltac:(lra) B1) as D1. cbn zeta in D, D1. rewrite D in M. rewrite D1 in M1. injection M as <-; injection M1 as <-. apply cdf_mean_conv. lra.
  - destruct (new_pdf_ok l (Some f) d B) as (rr & t & sx & L & TZ & -> & _). destruct (new_pdf_ok l (Some 1) d1 B1) as (rr1 & t1 & sx1 & L1 & _ & -> & _).
    destruct (pdf_loop_conv f l 0 0 0 _ _ _ _ _ _ ltac:(ring) L L1) as (<- & _ & a & b & -> & -> & E). cbn in M, M1. injection M as <-; injection M1 as <-. rewrite E. field. auto.
  - destruct (new_cum_ok l (Some f) d B) as (rr & t & sx & L & TZ & -> & _). destruct (new_cum_ok l (Some 1) d1 B1) as (rr1 & t1 & sx1 & L1 & _ & -> & _).
    destruct (cum_loop_conv f l 0 0 0 _ _ _ _ _ _ ltac:(ring) L L1) as (<- & _ & a & b & -> & -> & E). cbn in M, M1. injection M as <-; injection M1 as <-. rewrite E. field. auto.
Qed.
(** *** where the full statement fails *)
(** The mean of a Constant is multiplied by the factor twice: it is not the value that sample() always gives. *)
Theorem C48_constant_refuted : exists v f d m, 0 < f /\ new_const v f = DOk d /\ mean d = DOk (Some m) /\ forall St (G : rng St) s, exists q, sample G d s = (DOk (VNum q), s) /\ ~ q == m.
Proof. exists 1, 60, (DConst 1 60), (1 * 60 * 60). split; [lra|]. split; [reflexivity|]. split; [reflexivity|]. intros St G s. exists (1 * 60). split; [reflexivity|]. lra. Qed.
(** so it is not the average either *)
Theorem C48_constant_average_refuted : exists v f d m, 0 < f /\ new_const v f = DOk d /\ mean d = DOk (Some m) /\ ~ mean_of d m.
Proof.
  exists 1, 60, (DConst 1 60), (1 * 60 * 60). split; [lra|]. split; [reflexivity|]. split; [reflexivity|]. intros (k & g & S & A).
  assert (C : forall rs, unit_draws k rs -> g rs == 60).
  { intros rs U. assert (FD : exists s1, feed tape rs rs s1).
    { destruct U as [_ U]. clear S A. induction U as [|r rs (R0 & R1) U (s1 & IH)]; [exists []; constructor|]. exists s1. econstructor; [|exact IH]. cbn.
      assert (E0 : Qle_bool 0 r = true) by (apply Qle_bool_iff; lra). assert (E1 : Qltb r 1 = true) by (apply Qltb_iff; auto). rewrite E0, E1. reflexivity. }
    destruct FD as (s1 & FD). destruct (S rs U _ tape rs s1 FD) as (q & Q1 & E). cbn in Q1. injection Q1 as <- _. rewrite <- E. reflexivity. }
  assert (X : forall k g m, (forall rs, unit_draws k rs -> g rs == 60) -> avg k g m -> m == 60).
  { clear. induction k as [|k IH]; intros g m C A; cbn [avg] in A; [rewrite <- A; apply C; split; auto|]. destruct A as (h & A & AV).
    assert (H : forall r, 0 < r < 1 -> h r == 60). { intros r R. apply (IH (fun rs => g (r :: rs))); [|apply A; auto]. intros rs (L & F). apply C. split; cbn; auto. }
    apply (average_unique h); auto. eapply average_ext; [|exact (average_const 60)]. intros r R. cbn. rewrite H by auto. reflexivity. }
  specialize (X k g _ C A). lra.
Qed.
(** Samples and mean of an Erlang are divided by the factor instead of multiplied. *)
Theorem C48_erlang_refuted : exists shape rate f d d1, 0 < f /\ new_erlang shape (Some rate) None f = DOk d /\ new_erlang shape (Some rate) None 1 = DOk d1 /\
  (forall m m1, mean d = DOk (Some m) -> mean d1 = DOk (Some m1) -> ~ m == m1 * f) /\ exists St (G : rng St) s, rng_ok G /\ ~ converted f (fst (sample G d1 s)) (fst (sample G d s)).
Proof.
  exists 2, 1, 60. do 2 eexists. split; [lra|]. split; [reflexivity|]. split; [reflexivity|]. split.
  - intros m m1 M M1. cbn in M, M1. injection M as <-. injection M1 as <-. vm_compute. discriminate.
  - exists (list Q), tape, []. split; [apply tape_ok|]. vm_compute. discriminate.
Qed.
(** The mean of a Pdf with a distribution as value uses the mean of the latter without its time unit. *)
Theorem C48_nested_refuted : exists d0 d m m0, new_expo (Some 2) None 60 = DOk d0 /\ mean d0 = DOk (Some m0) /\ new_pdf [(PDist d0, 1)] None = DOk d /\ mean d = DOk (Some m) /\ ~ m == m0.
Proof. do 4 eexists. split; [reflexivity|]. split; [reflexivity|]. split; [reflexivity|]. split; [reflexivity|]. vm_compute. discriminate. Qed.
(** Case: twice a Uniform between 0 and 10 minutes (in seconds) plus a Pdf minus a Constant of 1 minute *)
Definition case_expr : dist :=
  match new_uni 0 (Some 10) 60, new_pdf [(PNum 5, 1); (PNum 7, 3)] None with
  | DOk u, DOk p => new_expr OSub (PDist (new_expr OAdd (PDist (new_expr OMul (PNum 2) (PDist u))) (PDist p))) (PDist (DConst 1 60))
  | _, _ => DConst 0 1
  end.
Example C48_case : analysed case_expr /\ exists m, mean case_expr = DOk (Some m) /\ m == 2 * 300 + (5 + 7 * 3) / 4 - 60 /\ mean_of case_expr m.
Proof.
  assert (A : analysed case_expr).
  { apply an_expr; [apply ax_dist|apply ax_const]. apply an_expr; [apply ax_dist|apply ax_dist].
    - apply an_expr; [apply ax_num|apply ax_dist]. apply (an_uniform 0 (Some 10) 60). reflexivity.
    - apply (an_pdf [(PNum 5, 1); (PNum 7, 3)] None); [|repeat constructor; cbn; lra|reflexivity|reflexivity]. intros x p [E|[E|[]]]; injection E as <- <-; eauto. }
  split; auto. assert (M : exists m, mean case_expr = DOk (Some m) /\ m == 2 * 300 + (5 + 7 * 3) / 4 - 60) by (eexists; split; [vm_compute; reflexivity|reflexivity]).
  destruct M as (m & M & E). exists m. split; auto. split; auto. apply C48_mean; auto.
Qed.
Example C48_case_unit : exists d d1 m m1, build (UCdf case_spec) 60 = DOk d /\ build (UCdf case_spec) 1 = DOk d1 /\ mean d = DOk (Some m) /\ mean d1 = DOk (Some m1) /\ m1 == (15 + 3 * 40) / 4 /\ m == m1 * 60.
Proof. do 4 eexists. split; [vm_compute; reflexivity|]. split; [vm_compute; reflexivity|]. split; [reflexivity|]. split; [reflexivity|]. split; vm_compute; reflexivity. Qed.
Example C48_case_int : exists d, new_int 1 (Some 6) 1 = DOk d /\ exists m, mean d = DOk (Some m) /\ m == 7 # 2.
Proof. eexists. split; [reflexivity|]. eexists. split; reflexivity. Qed.
Lemma qle_false : forall a, Qle_bool a 0 = false -> 0 < a.
Proof. intros a E. destruct (Qlt_le_dec 0 a) as [H|H]; auto. apply Qle_bool_iff in H. congruence. Qed.
(** ** The parameters *)
(** the expected value of a distribution with these parameters, from the literature *)
Definition textbook (sp : spec) : option Q :=
  match sp with
  | UExpo (Some m) None => Some m
  | UExpo None (Some rate) => Some (1 / rate)
  | UNormal m _ _ _ => Some m
  | UInt lo (Some hi) | UUni lo (Some hi) => Some ((lo + hi) / 2)
  | UTri low (Some high) (Some mode) => Some ((low + high + mode) / 3)
  | UTri low (Some high) None => Some ((low + high) / 2)
  | UGamma shape (Some scale) None | UErlang shape None (Some scale) => Some (shape * scale)
  | UGamma shape None (Some rate) | UErlang shape (Some rate) None => Some (shape / rate)
  | UWeib scale _ gm => Some (scale * gm) (* gm: the gamma function at 1 + 1 / shape *)
  | _ => None
  end.
(** a stream whose functions return their expected values, as documented in the Python library: random 1/2, expovariate(lambda) 1/lambda, gauss and normalvariate mu, gammavariate(alpha, beta) alpha * beta *)
Definition expected : rng unit :=
  mkRng (fun s => (1 # 2, s)) (fun l s => (1 / l, s)) (fun m _ s => (m, s)) (fun m _ s => (m, s)) (fun a b s => (a, s)) (fun a b s => (a, s)) (fun a b s => (a * b, s)) (fun a b s => (a / (a + b), s)) (fun x => x) (fun n k s => (seq 0 k, s)).
(** the distributions whose sample is a linear function of one call of the library *)
Definition linear (sp : spec) : bool := match sp with UExpo _ _ | UNormal _ _ _ _ | UUni _ _ | UGamma _ _ _ | UErlang _ _ _ => true | _ => false end.
(** mean() is the expected value that belongs to the parameters, and so is (by linearity) the expected value of sample() *)
Theorem C48_expected : forall sp d x, build sp 1 = DOk d -> textbook sp = Some x ->
  (exists m, mean d = DOk (Some m) /\ m == x) /\ (linear sp = true -> exists q, fst (sample expected d tt) = DOk (VNum q) /\ q == x).
Proof.
  intros sp d x B T. destruct sp; cbn [build textbook linear] in *; try discriminate.
  - unfold new_expo in B. destruct mean as [m|], rate as [r|]; try discriminate; [destruct (Qle_bool m 0) eqn:E | destruct (Qle_bool r 0) eqn:E]; try discriminate; injection B as <-; injection T as <-;
      apply qle_false in E; (split; [|intros _]); eexists; (split; [reflexivity|]); cbn; field; lra.
  - unfold new_normal in B. destruct (match sd, cov with None, None => DOk 0 | None, Some c => if Qeq_bool mean 0 then DEr DValue else DOk (c * mean) | Some s, None => DOk s | Some _, Some _ => DEr DType end) as [z|]; [|discriminate].
    cbn [dbind] in B. destruct (Qltb z 0); [discriminate|]. injection B as <-. injection T as <-. split; [|intros _]; (eexists; split; [cbn [sample expected gr_gauss gr_normal]; destruct use_gauss; reflexivity|]); cbn; ring.
  - destruct hi as [hi|]; [|discriminate]. unfold new_int in B. destruct (Qltb _ lo); [discriminate|]. destruct (is_int lo); [|discriminate]. destruct (is_int _); [|discriminate]. injection B as <-. injection T as <-.
    split; [|discriminate]. eexists. split; [reflexivity|]. field.
  - destruct hi as [hi|]; [|discriminate]. unfold new_uni in B. destruct (Qltb _ lo); [discriminate|]. injection B as <-. injection T as <-. split; [|intros _]; (eexists; split; [reflexivity|]); cbn; field.
  - destruct high as [high|]; [|discriminate]. unfold new_tri in B. destruct (Qltb _ low); [discriminate|]. destruct (Qltb _ low); [discriminate|]. destruct (Qltb _ _); [discriminate|]. injection B as <-.
    split; [|discriminate]. eexists. split; [reflexivity|]. destruct mode as [mode|]; injection T as <-; field.
  - unfold new_weib in B. destruct (Qle_bool shape 0); [discriminate|]. injection B as <-. injection T as <-. split; [|discriminate]. eexists. split; [reflexivity|]. ring.
  - unfold new_gamma in B. destruct (Qle_bool shape 0); [discriminate|]. destruct scale as [c|], rate as [r|]; try discriminate; [destruct (Qle_bool c 0) eqn:E | destruct (Qle_bool r 0) eqn:E]; try discriminate; injection B as <-; injection T as <-;
      apply qle_false in E; (split; [|intros _]); eexists; (split; [reflexivity|]); cbn; field; lra.
  - unfold new_erlang in B. destruct (is_int shape); [|discriminate]. cbn [negb] in B. destruct (Qle_bool shape 0); [discriminate|]. destruct rate as [r|], scale as [c|]; try discriminate; [destruct (Qle_bool r 0) eqn:E | destruct (Qle_bool c 0) eqn:E]; try discriminate;
      injection B as <-; injection T as <-; apply qle_false in E; (split; [|intros _]); eexists; (split; [reflexivity|]); cbn; field; lra.
Qed.
Example C48_case_expected : exists d, build (UErlang 3 None (Some 2)) 1 = DOk d /\ textbook (UErlang 3 None (Some 2)) = Some (3 * 2) /\ fst (sample expected d tt) = DOk (VNum (3 * (1 / (1 / 2)) / 1)).
Proof. eexists. repeat split. Qed.
Print Assumptions C48_expected.
Print Assumptions C48_int.
Print Assumptions C48_equal.
Print Assumptions C48_unit_sample.
Print Assumptions C48_unit_mean.
Print Assumptions C48_constant_refuted.
Print Assumptions C48_constant_average_refuted.
Print Assumptions C48_erlang_refuted.
Print Assumptions C48_nested_refuted.
