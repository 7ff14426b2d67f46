(** Tables of monitors: C70 (histograms and values) *)
From Coq Require Import QArith Qround Lqa List Bool Arith ZArith Lia Sorted.
From Verif Require Import Base Util PropUtil Mon MonSpec MonP MonQ MonR PropMon MonT.
Import ListNotations.
Open Scope Q_scope.

(** ** Specification *)
(** the edges of n bins from [low] on, with the two infinite ones *)
Definition edge (low width : Q) (n i : Z) : bound := if (i <? 0)%Z then BNegInf else if (n <? i)%Z then BInf else BFin (low + inject_Z i * width).
(** 1 if lo < x <= hi, otherwise 0 *)
Definition over (lo : bound) (x : Q) : bool := match lo with BNegInf => true | BFin a => Qltb a x | BInf => false end.
Definition under (hi : bound) (x : Q) : bool := match hi with BNegInf => false | BFin b => Qle_bool x b | BInf => true end.
Definition inb (lo hi : bound) (x : Q) : Q := if over lo x && under hi x then 1 else 0.
Definition below (hi : bound) (x : Q) : Q := if under hi x then 1 else 0.

Lemma over_above : forall b q, over b q = above b q. Proof. intros [| |]; reflexivity. Qed.
Lemma under_upto : forall b q, under b q = upto b q. Proof. intros [| |]; reflexivity. Qed.
Lemma inb_bin : forall lo hi x, (if in_bin lo hi x then 1 else 0) == inb lo hi (numq x).
Proof. intros lo hi x. unfold inb, in_bin. destruct lo, hi; reflexivity. Qed.
Lemma area_ext : forall l ex0 f g h now, (forall q, f q == g q) -> area l ex0 f h now == area l ex0 g h now.
Proof. intros l ex0 f g h now E. unfold area. destruct l; [apply integral_ext | apply total_ext]; intros x; destruct (ex0 && zero x); auto; reflexivity. Qed.
Lemma area_plus : forall l ex0 f g h now, area l ex0 (fun q => f q + g q) h now == area l ex0 f h now + area l ex0 g h now.
Proof.
  intros l ex0 f g h now. unfold area. destruct l; [rewrite <- integral_plus; apply integral_ext | rewrite <- total_plus; apply total_ext]; intros x; destruct (ex0 && zero x); ring.
Qed.
Lemma data_ones : forall v m h ex0 q w, Minv v m h -> m_stats m = false -> m_level m = false -> m_w m = WNo -> In (q, w) (data ex0 h) -> w == 1.
Proof.
  intros v m h ex0 q w I S L W D. destruct (mi_pla _ _ _ I S L) as [_ PW _]. rewrite W in PW. cbn in PW. rewrite Forall_forall in PW. unfold data in D. apply in_map_iff in D. destruct D as ((x & u) & E & D). apply filter_In in D. destruct D as (D & _). injection E as _ <-.
  unfold recorded in D. apply in_map_iff in D. destruct D as (p & E & D). apply in_rev in D. injection E as _ <-. apply (PW p D).
Qed.
Lemma count_ones : forall (f : val -> bool) (l : list (val * Q)), (forall x w, In (x, w) l -> w == 1) -> inject_Z (Z.of_nat (length (filter f (map fst l)))) == total_of (fun x => if f x then 1 else 0) l.
Proof.
  intros f l. induction l as [|[x w] r IH]; intros W; [reflexivity|]. cbn [map fst filter total_of]. assert (X := IH (fun y u I => W y u (or_intror I))). pose proof (W x w (or_introl eq_refl)) as Y. destruct (f x).
  - cbn [length]. rewrite Nat2Z.inj_succ. unfold Z.succ. rewrite inject_Z_plus, X, Y. change (inject_Z 1) with 1. ring.
  - rewrite X. ring.
Qed.
Lemma unweighted : forall v m h, Minv v m h -> m_stats m = false -> weighted m = false -> m_level m = false /\ m_w m = WNo.
Proof.
  intros v m h I S W. unfold weighted in W. destruct (m_w m) eqn:E; try discriminate. split; auto. destruct (m_level m) eqn:L; auto. pose proof (lv_w _ _ _ (mi_lev _ _ _ I S L)). congruence.
Qed.
Lemma bin_of_area : forall lo hi v m h, traced v m h -> m_stats m = false -> exists c, bin_of lo hi v m = Mok c /\ c == area (m_level m) false (inb lo hi) h (v_now v).
Proof.
  intros lo hi v m h T S. pose proof (traced_inv _ _ _ T) as I. unfold bin_of. destruct (weighted m) eqn:W.
  - eexists. split; [reflexivity|]. destruct (xweight false true v m) as [m' r] eqn:E. cbn [snd]. destruct (stat_xw v m h false m' r T S E) as (EV & A). unfold bin_weight_of. rewrite sumQ_filter_total. rewrite <- A. apply total_ext. intros x. apply inb_bin.
  - destruct (unweighted _ _ _ I S W) as (L & WN). unfold bin_number_of_entries. rewrite S, L. destruct (xweight false true v m) as [m' r] eqn:E. cbn [snd]. eexists. split; [reflexivity|].
    destruct (stat_xw_plain v m h false m' r T S L E) as (E1 & _). unfold bin_count. rewrite E1. unfold both. cbn [fst]. rewrite count_ones.
    + rewrite <- (data_total false _ h (v_now v)). rewrite (total_map _ _ _ Num). apply total_ext. intros x. apply inb_bin.
    + intros x w J. apply in_map_iff in J. destruct J as ((q & u) & F & J). injection F as _ <-. eapply data_ones; eauto.
Qed.
Lemma edges_split : forall low width n i q, 0 <= width -> (-1 <= i <= n)%Z -> below (edge low width n i) q + inb (edge low width n i) (edge low width n (i + 1)) q == below (edge low width n (i + 1)) q.
Proof.
  intros low width n i q W I. unfold below, inb. assert (K : under (edge low width n i) q = true -> under (edge low width n (i + 1)) q = true).
  { unfold edge. destruct (Z.ltb_spec i 0); [discriminate|]. destruct (Z.ltb_spec n i); [lia|]. destruct (Z.ltb_spec (i + 1) 0); [lia|]. destruct (Z.ltb_spec n (i + 1)); [reflexivity|]. cbn. rewrite !Qle_bool_iff, inject_Z_plus. change (inject_Z 1) with 1. intros. lra. }
  assert (O : over (edge low width n i) q = negb (under (edge low width n i) q)).
  { unfold edge. destruct (Z.ltb_spec i 0); [reflexivity|]. destruct (Z.ltb_spec n i); [lia|]. cbn. reflexivity. }
  rewrite O. destruct (under (edge low width n i) q); [rewrite K by auto; cbn; ring|]. cbn. destruct (under (edge low width n (i + 1)) q); ring.
Qed.
Definition rows_from (v : menv) (m : mon) (h : hist) (low width : Q) (n : Z) (total : Q) (i0 : Z) (l : list row) : Prop :=
  forall k r, nth_error l k = Some r -> let i := (i0 + Z.of_nat k)%Z in
    w_ub r = edge low width n (i + 1) /\ w_count r == area (m_level m) false (inb (edge low width n i) (edge low width n (i + 1))) h (v_now v) /\
    (~ total == 0 -> w_perc r * total == w_count r /\ w_cum r * total == area (m_level m) false (below (edge low width n (i + 1))) h (v_now v)).
Lemma bin_rows_ok : forall v m h low width n total, traced v m h -> m_stats m = false -> 0 <= width -> forall k i cum, (-1 <= i)%Z -> (i + Z.of_nat k = n + 1)%Z ->
  (~ total == 0 -> cum * total == area (m_level m) false (below (edge low width n i)) h (v_now v)) ->
  exists l, bin_rows low width n total cum k i v m = Mok l /\ length l = k /\ rows_from v m h low width n total i l.
Proof.
  intros v m h low width n total T S W. induction k as [|k IH]; intros i cum I K C; cbn [bin_rows].
  - exists []. split; auto. split; auto. intros k r E. destruct k; discriminate.
  - assert (E1 : (if (i =? -1)%Z then BNegInf else BFin (low + inject_Z i * width)) = edge low width n i).
    { unfold edge. destruct (Z.eqb_spec i (-1)), (Z.ltb_spec i 0); try lia; auto. destruct (Z.ltb_spec n i); [lia | auto]. }
    assert (E2 : (if (i =? n)%Z then BInf else BFin (low + inject_Z (i + 1) * width)) = edge low width n (i + 1)).
    { unfold edge. destruct (Z.ltb_spec (i + 1) 0); [lia|]. destruct (Z.eqb_spec i n), (Z.ltb_spec n (i + 1)); try lia; auto. }
    rewrite E1, E2. destruct (bin_of_area (edge low width n i) (edge low width n (i + 1)) v m h T S) as (c & -> & A). set (p := c / (if Qeq_bool total 0 then 1 else total)).
    assert (P : ~ total == 0 -> p * total == c). { intros N. unfold p. apply Qeqb_false in N. rewrite N. apply Qeqb_false in N. field. exact N. }
    clearbody p. assert (C2 : ~ total == 0 -> (cum + p) * total == area (m_level m) false (below (edge low width n (i + 1))) h (v_now v)).
    { intros N. rewrite Qmult_plus_distr_l, C, P, A by auto. rewrite <- area_plus. apply area_ext. intros q. apply edges_split; auto. lia. }
    destruct (IH (i + 1)%Z (cum + p) ltac:(lia) ltac:(lia) C2) as (l & -> & LL & R). eexists. split; [reflexivity|]. split; [cbn; congruence|]. intros [|j] r N.
    + injection N as <-. cbn [w_ub w_count w_perc w_cum]. replace (i + Z.of_nat 0)%Z with i by lia. cbv zeta. auto.
    + cbn [nth_error] in N. specialize (R j r N). cbv zeta in *. replace (i + Z.of_nat (Datatypes.S j))%Z with (i + 1 + Z.of_nat j)%Z by lia. exact R.
Qed.

(** ** C70: histograms *)
(** the rows of a histogram: bin by bin, from -inf to inf, with what lies in it, its share, and the share up to its upper bound *)
Definition rows_ok (v : menv) (m : mon) (h : hist) (low width : Q) (n : Z) (l : list row) : Prop :=
  let weight := fun f => area (m_level m) false f h (v_now v) in let total := weight (fun _ => 1) in
  length l = Z.to_nat (n + 2) /\ forall k r, nth_error l k = Some r -> let lo := edge low width n (Z.of_nat k - 1) in let hi := edge low width n (Z.of_nat k) in
    w_ub r = hi /\ w_count r == weight (inb lo hi) /\ (~ total == 0 -> w_perc r * total == w_count r /\ w_cum r * total == weight (below hi)).
Lemma total_area : forall v m h ex0, traced v m h -> m_stats m = false -> sumQ (snd (snd (xweight ex0 true v m))) == area (m_level m) ex0 (fun _ => 1) h (v_now v).
Proof. intros v m h ex0 T S. destruct (xweight ex0 true v m) as [m' r] eqn:E. cbn [snd]. destruct (stat_xw v m h ex0 m' r T S E) as (EV & A). rewrite (sumQ_total r EV), <- A. reflexivity. Qed.
Theorem C70_histogram : forall n low width v m h, traced v m h -> m_stats m = false -> (0 <= n)%Z -> 0 <= width ->
  exists l, histogram (Some n) (Some low) (Some width) false v m = Mok l /\ rows_ok v m h low width n l.
Proof.
  intros n low width v m h T S N W. unfold histogram. rewrite S. destruct (Z.ltb_spec n 0); [lia|]. set (total := sumQ (snd (snd (xweight false true v m)))). assert (TT : total == area (m_level m) false (fun _ => 1) h (v_now v)) by (apply total_area; auto). clearbody total.
  destruct (bin_rows_ok v m h low width n total T S W (Z.to_nat (n + 2)) (-1) 0 ltac:(lia) ltac:(lia)) as (l & -> & LL & R).
  { intros _. rewrite Qmult_0_l. assert (Z : area (m_level m) false (below (edge low width n (-1))) h (v_now v) == area (m_level m) false (fun _ => 0) h (v_now v)) by (apply area_ext; intros; reflexivity). rewrite Z. clear.
    unfold area. cbn [andb]. destruct (m_level m); [symmetry; apply integral_zero|]. induction (recorded h) as [|[x w] r IH]; cbn [total_of]; [reflexivity|]. rewrite <- IH. ring. }
  exists l. split; auto. split; auto. intros k r E. specialize (R k r E). cbv zeta in *. replace (-1 + Z.of_nat k)%Z with (Z.of_nat k - 1)%Z in R by lia. replace (Z.of_nat k - 1 + 1)%Z with (Z.of_nat k) in R by lia. destruct R as (R1 & R2 & R3). split; auto. split; auto. rewrite <- TT. auto.
Qed.
(** so: in the last row the cumulative share is 1, and the counts add up to the total *)
Theorem C70_complete : forall n low width v m h l, traced v m h -> m_stats m = false -> (0 <= n)%Z -> 0 <= width -> histogram (Some n) (Some low) (Some width) false v m = Mok l ->
  ~ area (m_level m) false (fun _ => 1) h (v_now v) == 0 -> exists k r, l = k ++ [r] /\ w_ub r = BInf /\ w_cum r == 1.
Proof.
  intros n low width v m h l T S N W E NZ. destruct (C70_histogram n low width v m h T S N W) as (l' & E' & LL & R). rewrite E in E'. injection E' as <-. destruct (exists_last (l := l)) as (k & r & ->); [intros ->; cbn in LL; lia|]. exists k, r. split; auto.
  rewrite app_length in LL. cbn [length] in LL. specialize (R (length k) r). rewrite nth_error_app2, Nat.sub_diag in R by lia. specialize (R eq_refl). cbv zeta in R. assert (X : edge low width n (Z.of_nat (length k)) = BInf).
  { unfold edge. destruct (Z.ltb_spec (Z.of_nat (length k)) 0); [lia|]. destruct (Z.ltb_spec n (Z.of_nat (length k))); [auto | lia]. }
  rewrite X in R. destruct R as (R1 & _ & R3). split; auto. destruct (R3 NZ) as (_ & R4). assert (Y : area (m_level m) false (below BInf) h (v_now v) == area (m_level m) false (fun _ => 1) h (v_now v)) by (apply area_ext; intros; reflexivity). rewrite Y in R4.
  set (t := area (m_level m) false (fun _ => 1) h (v_now v)) in *. clearbody t. assert (Z : w_cum r == (w_cum r * t) / t) by (field; auto). rewrite Z, R4. field. auto.
Qed.

(** ** The scale that is chosen *)
(** the widths 1, 2, 5, 10, 20, 50 … 5000000000 *)
Definition nice (w : Q) : Prop := exists (i : nat) (k : Z), (i < 10)%nat /\ In k [1; 2; 5]%Z /\ w = inject_Z (k * 10 ^ Z.of_nat i).
(** the number of bins of width w, that start at a multiple of w, needed from lo up to hi *)
Definition needed (lo hi w : Q) (k : Z) : Prop := exists a : Z, inject_Z a * w <= lo /\ lo < inject_Z (a + 1) * w /\ inject_Z (a + k - 1) * w < hi /\ hi <= inject_Z (a + k) * w.
Lemma widths_nice : forall w, In w widths <-> nice w.
Proof.
  intros w. unfold widths, nice. rewrite in_flat_map. split.
  - intros (i & I & E). apply in_seq in I. cbn [In] in E. destruct E as [<-|[<-|[<-|[]]]]; exists i.
    + exists 1%Z. split; [lia|]. split; [cbn; auto|]. f_equal. lia.
    + exists 2%Z. split; [lia|]. split; [cbn; auto|]. change 2 with (inject_Z 2). unfold Qmult, inject_Z. cbn [Qnum Qden]. f_equal. lia.
    + exists 5%Z. split; [lia|]. split; [cbn; auto|]. change 5 with (inject_Z 5). unfold Qmult, inject_Z. cbn [Qnum Qden]. f_equal. lia.
  - intros (i & k & I & K & ->). exists i. split; [apply in_seq; lia|]. cbn [In] in *. destruct K as [<-|[<-|[<-|[]]]].
    + left. f_equal. lia.
    + right; left. change 2 with (inject_Z 2). unfold Qmult, inject_Z. cbn [Qnum Qden]. f_equal. lia.
    + right; right; left. change 5 with (inject_Z 5). unfold Qmult, inject_Z. cbn [Qnum Qden]. f_equal. lia.
Qed.
Lemma nice_pos : forall w, nice w -> 1 <= w.
Proof.
  intros w (i & k & I & K & ->). change 1 with (inject_Z 1). rewrite <- Zle_Qle. assert (0 < 10 ^ Z.of_nat i)%Z by (apply Z.pow_pos_nonneg; lia). cbn [In] in K. destruct K as [<-|[<-|[<-|[]]]]; lia.
Qed.
Fixpoint climbs (l : list Q) : bool := match l with x :: ((y :: _) as r) => Qltb x y && climbs r | _ => true end.
Lemma climbs_lt : forall x l, climbs (x :: l) = true -> forall y, In y l -> x < y.
Proof.
  intros x l. revert x. induction l as [|z r IH]; intros x C y I; [destruct I|]. cbn [climbs] in C. apply andb_true_iff in C. destruct C as [C1 C2]. apply Qltb_iff in C1. destruct I as [<-|I]; auto. specialize (IH z C2 y I). lra.
Qed.
Lemma climbs_tl : forall x l, climbs (x :: l) = true -> climbs l = true.
Proof. intros x [|y r] C; auto. cbn [climbs] in *. apply andb_true_iff in C. tauto. Qed.
Lemma widths_climb : climbs widths = true. Proof. vm_compute. reflexivity. Qed.
Lemma try_widths_spec : forall lo hi l d, climbs l = true -> l <> [] -> let w := try_widths lo hi d l in
  In w l /\ (forall w', In w' l -> w' < w -> (30 < auto_number lo hi w')%Z) /\ ((auto_number lo hi w <= 30)%Z \/ forall w', In w' l -> w' <= w).
Proof.
  intros lo hi l. induction l as [|x r IH]; intros d C N; [congruence|]. cbn [try_widths]. cbv zeta. destruct (Z.leb_spec (auto_number lo hi x) 30).
  - split; [cbn; auto|]. split; auto. intros w' [<-|I] L; [lra|]. pose proof (climbs_lt x r C w' I). lra.
  - destruct r as [|y r].
    + cbn [try_widths]. split; [cbn; auto|]. split; [intros w' [<-|[]] L; lra|]. right. intros w' [<-|[]]. lra.
    + destruct (IH x (climbs_tl _ _ C) ltac:(discriminate)) as (A & B & D). cbv zeta in *. set (w := try_widths lo hi x (y :: r)) in *. clearbody w. pose proof (climbs_lt x _ C w A) as XW. split; [right; exact A|]. split.
      * intros w' [<-|I] L; auto.
      * destruct D as [D|D]; auto. right. intros w' [<-|I]; auto. lra.
Qed.
Lemma auto_needed : forall lo hi w, 0 < w -> needed lo hi w (auto_number lo hi w) /\ auto_low lo w = inject_Z (Qfloor (lo / w)) * w.
Proof.
  intros lo hi w W. split; [|reflexivity]. unfold auto_number, auto_low. set (a := Qfloor (lo / w)). assert (A : inject_Z a * w <= lo /\ lo < inject_Z (a + 1) * w).
  { pose proof (Qfloor_le (lo / w)) as F. pose proof (Qlt_floor (lo / w)) as G. fold a in F, G. assert (E : lo == lo / w * w) by (field; lra). split; rewrite E at 1; [apply Qmult_le_compat_r|apply Qmult_lt_compat_r]; auto; lra. }
  set (k := Qceiling ((hi - inject_Z a * w) / w)). exists a. split; [tauto|]. split; [tauto|]. assert (E : hi == (hi - inject_Z a * w) / w * w + inject_Z a * w) by (field; lra). pose proof (Qle_ceiling ((hi - inject_Z a * w) / w)) as F. pose proof (Qceiling_lt ((hi - inject_Z a * w) / w)) as G. fold k in F, G.
  replace (a + k - 1)%Z with ((k - 1) + a)%Z by lia. replace (a + k)%Z with (k + a)%Z by lia. rewrite !inject_Z_plus in *. rewrite E. set (u := (hi - inject_Z a * w) / w) in *. clearbody u. split.
  - rewrite Qmult_plus_distr_l. apply Qplus_lt_le_compat; [|lra]. apply Qmult_lt_compat_r; auto.
  - rewrite Qmult_plus_distr_l. apply Qplus_le_compat; [|lra]. apply Qmult_le_compat_r; lra.
Qed.
Lemma needed_few : forall lo hi w, 0 < w -> hi - lo <= 29 * w -> (auto_number lo hi w <= 30)%Z.
Proof.
  intros lo hi w W R. destruct (auto_needed lo hi w W) as ((a & A1 & A2 & A3 & A4) & _). set (k := auto_number lo hi w) in *. clearbody k. destruct (Z.le_gt_cases k 30) as [|K]; auto. exfalso. assert (X : inject_Z (a + 30) * w <= inject_Z (a + k - 1) * w) by (apply Qmult_le_compat_r; [rewrite <- Zle_Qle; lia|lra]).
  rewrite !inject_Z_plus in *. change (inject_Z 30) with 30 in X. change (inject_Z 1) with 1 in A2. lra.
Qed.
Lemma needed_some : forall lo hi w k, 0 < w -> lo <= hi -> needed lo hi w k -> (0 <= k)%Z.
Proof.
  intros lo hi w k W L (a & A1 & A2 & A3 & A4). destruct (Z.le_gt_cases 0 k) as [|K]; auto. exfalso. assert (X : inject_Z (a + k) * w <= inject_Z (a - 1) * w) by (apply Qmult_le_compat_r; [rewrite <- Zle_Qle; lia|lra]). assert (Y : inject_Z (a - 1) * w < inject_Z a * w) by (apply Qmult_lt_compat_r; auto; rewrite <- Zlt_Qlt; lia). lra.
Qed.

(** without any setting: nothing recorded gives no bins; otherwise the smallest of the widths 1, 2, 5, 10 … that needs at most 30 bins, from a multiple of it, such that nothing lies outside the bins *)
Theorem C70_autoscale : forall v m h, traced v m h -> m_stats m = false -> let weight := fun f => area (m_level m) false f h (v_now v) in
  exists width low n, histogram_autoscale false v m = Mok (width, low, n) /\ histogram None None None false v m = histogram (Some n) (Some low) (Some width) false v m /\ (0 <= n)%Z /\ 0 < width /\
  (weight (fun _ => 1) == 0 -> width = 1 /\ low = 0 /\ n = 0%Z) /\
  (~ weight (fun _ => 1) == 0 -> exists lo hi, snd (minimum false v m) = Some lo /\ snd (maximum false v m) = Some hi /\ lo <= hi /\
     nice width /\ needed lo hi width n /\ (exists a : Z, low = inject_Z a * width) /\ low <= lo /\ lo < low + width /\ hi <= low + inject_Z n * width /\
     weight (fun x => if Qle_bool low x && Qle_bool x (low + inject_Z n * width) then 0 else 1) == 0 /\
     (hi - lo <= 145000000000 -> (n <= 30)%Z) /\ (forall w, nice w -> w < width -> exists k, needed lo hi w k /\ (30 < k)%Z)).
Proof.
  intros v m h T S weight. assert (TT := total_area v m h false T S). fold (weight (fun _ => 1)) in TT.
  assert (X : exists width low n, histogram_autoscale false v m = Mok (width, low, n) /\ (0 <= n)%Z /\ 0 < width /\
  (weight (fun _ => 1) == 0 -> width = 1 /\ low = 0 /\ n = 0%Z) /\
  (~ weight (fun _ => 1) == 0 -> exists lo hi, snd (minimum false v m) = Some lo /\ snd (maximum false v m) = Some hi /\ lo <= hi /\
     nice width /\ needed lo hi width n /\ (exists a : Z, low = inject_Z a * width) /\ low <= lo /\ lo < low + width /\ hi <= low + inject_Z n * width /\
     weight (fun x => if Qle_bool low x && Qle_bool x (low + inject_Z n * width) then 0 else 1) == 0 /\
     (hi - lo <= 145000000000 -> (n <= 30)%Z) /\ (forall w, nice w -> w < width -> exists k, needed lo hi w k /\ (30 < k)%Z))).
  { unfold histogram_autoscale, sys_weight, minimum, maximum. rewrite S. destruct (xweight false true v m) as [m' r] eqn:E. cbn [snd] in *. destruct (Qeq_bool (sumQ (snd r)) 0) eqn:Z.
    - apply Qeqb_true in Z. exists 1, 0, 0%Z. split; auto. split; [lia|]. split; [lra|]. split; auto. intros N. rewrite TT in Z. destruct (N Z).
    - apply Qeqb_false in Z. pose proof (min_of_spec (fst r)) as MI. pose proof (max_of_spec (fst r)) as MA. destruct (stat_xw v m h false m' r T S E) as (EV & A). assert (NE : fst r <> []).
      { intros F. unfold even in EV. rewrite F in EV. destruct (snd r); [apply Z; reflexivity|discriminate]. }
      destruct (min_of (fst r)) as [lo|]; cbn [least_spec] in MI; [|apply map_eq_nil in MI; contradiction]. destruct (max_of (fst r)) as [hi|]; cbn [largest_spec] in MA; [|apply map_eq_nil in MA; contradiction].
      destruct MI as [(x & X1 & X2) MI]. destruct MA as [_ MA]. assert (LH : lo <= hi) by (pose proof (MA x X1); lra). set (w := try_widths lo hi 1 widths). destruct (try_widths_spec lo hi widths 1 widths_climb ltac:(discriminate)) as (W1 & W2 & W3). fold w in W1, W2, W3. clearbody w. pose proof (proj1 (widths_nice w) W1) as NW. pose proof (nice_pos w NW) as WP. assert (WP' : 0 < w) by lra.
      destruct (auto_needed lo hi w WP') as (ND & _). exists w, (auto_low lo w), (auto_number lo hi w). split; auto. split; [exact (needed_some lo hi w _ WP' LH ND)|]. split; auto. split; [intros F; rewrite TT in Z; destruct (Z F)|]. intros _. exists lo, hi. split; auto. split; auto. split; auto. split; auto. split; auto. split; [eexists; reflexivity|].
      assert (B : auto_low lo w <= lo /\ lo < auto_low lo w + w /\ hi <= auto_low lo w + inject_Z (auto_number lo hi w) * w).
      { unfold auto_number. set (k := Qceiling ((hi - auto_low lo w) / w)). pose proof (Qfloor_le (lo / w)) as F. pose proof (Qlt_floor (lo / w)) as G. pose proof (Qle_ceiling ((hi - auto_low lo w) / w)) as H. fold k in H. assert (E1 : lo == lo / w * w) by (field; lra). assert (E2 : hi == (hi - auto_low lo w) / w * w + auto_low lo w) by (field; lra).
        split; [|split]. - unfold auto_low. rewrite E1 at 2. apply Qmult_le_compat_r; auto. lra.
        - unfold auto_low. setoid_replace (inject_Z (Qfloor (lo / w)) * w + w) with (inject_Z (Qfloor (lo / w) + 1) * w) by (rewrite inject_Z_plus; change (inject_Z 1) with 1; ring). rewrite E1 at 1. apply Qmult_lt_compat_r; auto.
        - rewrite E2 at 1. rewrite Qplus_comm. apply Qplus_le_compat; [lra|]. apply Qmult_le_compat_r; auto. lra. }
      destruct B as (B1 & B2 & B3). split; auto. split; auto. split; auto. split; [|split].
      + unfold weight. rewrite <- A. assert (ALL : forall p, In p (pairs r) -> (if Qle_bool (auto_low lo w) (numq (fst p)) && Qle_bool (numq (fst p)) (auto_low lo w + inject_Z (auto_number lo hi w) * w) then 0 else 1) == 0).
        { intros (y & u) P. unfold pairs in P. apply in_combine_l in P. cbn [fst]. apply (in_map numq) in P. pose proof (MI _ P). pose proof (MA _ P). replace (Qle_bool (auto_low lo w) (numq y)) with true by (symmetry; apply Qle_bool_iff; lra). replace (Qle_bool (numq y) (auto_low lo w + inject_Z (auto_number lo hi w) * w)) with true by (symmetry; apply Qle_bool_iff; lra). reflexivity. }
        clear - ALL. revert ALL. generalize (pairs r). intros l. induction l as [|p l IH]; intros ALL; cbn [total_of]; [reflexivity|]. destruct p as (y & u). cbn [fst] in *. rewrite IH by (intros; apply ALL; cbn; auto). pose proof (ALL (y, u) (or_introl eq_refl)) as Y. cbn [fst] in Y. rewrite Y. ring.
      + intros R. destruct W3 as [W3|W3]; auto. apply needed_few; auto. assert (NB : In (inject_Z 5000000000) widths) by (apply widths_nice; exists 9%nat, 5%Z; split; [lia|]; split; [cbn; auto|reflexivity]). pose proof (W3 _ NB) as Y. change (inject_Z 5000000000) with 5000000000 in Y. lra.
      + intros w' N' L'. exists (auto_number lo hi w'). split; [apply auto_needed; pose proof (nice_pos w' N'); lra|]. apply W2; auto. apply widths_nice. auto. }
  destruct X as (width & low & n & E & N & R). exists width, low, n. split; auto. split; auto. unfold histogram at 1. rewrite S, E. unfold histogram. rewrite S. reflexivity.
Qed.

(** ** Values *)
(** the weight, the time or the number of times of the values for which f is 1 *)
Definition share (level : bool) (f : val -> Q) (h : hist) (now : Q) : Q := if level then integral f h now else total_of f (recorded h).
Definition is_in (vs : list val) (x : val) : Q := if existsb (veqb x) vs then 1 else 0.
(** with ex0 the number zero does not take part *)
Definition part (ex0 : bool) (x : val) : bool := negb (ex0 && veqb x (Num 0)).
Lemma keep_part : forall ex0 x, keep ex0 x = part ex0 x. Proof. intros [|] x; unfold keep, part; cbn; auto. Qed.
Lemma share_ext : forall l f g h now, (forall x, f x == g x) -> share l f h now == share l g h now.
Proof. intros l f g h now E. unfold share. destruct l; [apply integral_ext | apply total_ext]; auto. Qed.
Lemma share_plus : forall l f g h now, share l (fun x => f x + g x) h now == share l f h now + share l g h now.
Proof. intros l f g h now. unfold share. destruct l; [apply integral_plus | apply total_plus]. Qed.
Lemma share_zero : forall l h now, share l (fun _ => 0) h now == 0.
Proof. intros l h now. unfold share. destruct l; [apply integral_zero|]. induction (recorded h) as [|[x w] r IH]; cbn [total_of]; [reflexivity|]. rewrite IH. ring. Qed.
Lemma total_keep : forall (f : val -> bool) g l, total_of g (filter (fun p => f (fst p)) l) == total_of (fun x => if f x then g x else 0) l.
Proof. intros f g l. induction l as [|[x w] r IH]; [reflexivity|]. cbn [filter fst]. destruct (f x) eqn:F; cbn [total_of]; rewrite F, IH; ring. Qed.
Lemma cvt_no : forall ty x, cvt ty false x = x. Proof. intros. unfold cvt. rewrite andb_false_r. reflexivity. Qed.
Lemma xv_share : forall v m h ex0 m' r, traced v m h -> m_stats m = false -> xweight ex0 false v m = (m', r) ->
  even r /\ forall g, total_of g (pairs r) == share (m_level m) (fun x => if part ex0 x then g x else 0) h (v_now v).
Proof.
  intros v m h ex0 m' r T S E. pose proof (traced_inv _ _ _ T) as I. destruct (xweight_cinv v m h ex0 false m' r I (traced_cinv _ _ _ T) S E) as (_ & (G1 & G2 & _) & _). split; auto. intro g. rewrite (G2 _). cbn [fst snd]. unfold share. destruct (m_level m) eqn:L.
  - rewrite xw_total by auto. pose proof (mi_lev _ _ _ I S L) as LEV. rewrite <- (lv_int _ _ _ LEV). apply gsum_ext. intros x w X O. rewrite cvt_no, keep_part. reflexivity.
  - rewrite (weq_totals _ _ (xw_plain v m h ex0 false I S L) _), both_pairs. rewrite total_keep. rewrite (total_map _ _ _ (cvt (m_type m) false)). apply total_ext. intros x. rewrite cvt_no, keep_part. reflexivity.
Qed.
Lemma veqb_sym : forall x y, veqb x y = veqb y x.
Proof. intros [p| |i o] [q| |j o']; cbn; auto. - apply eq_true_iff_eq. rewrite !Qeq_bool_iff. split; intros E; symmetry; auto. - apply Nat.eqb_sym. Qed.
Lemma veqb_trans : forall x y z, veqb x y = true -> veqb y z = true -> veqb x z = true.
Proof. intros [p| |i o] [q| |j o'] [r| |k o'']; cbn; try discriminate; auto. - rewrite !Qeq_bool_iff. intros A B. rewrite A, B. reflexivity. - rewrite !Nat.eqb_eq. congruence. Qed.
(** no two of them are equal *)
Definition different (l : list val) : Prop := ForallOrdPairs (fun x y => veqb x y = false) l.
Lemma existsb_veqb : forall x l, existsb (veqb x) l = true <-> exists y, In y l /\ veqb x y = true. Proof. intros. apply existsb_exists. Qed.
Lemma existsb_no : forall x l, existsb (veqb x) l = false <-> forall y, In y l -> veqb x y = false.
Proof.
  intros x l. split.
  - intros E y I. destruct (veqb x y) eqn:V; auto. assert (existsb (veqb x) l = true) by (apply existsb_exists; eauto). congruence.
  - intros A. destruct (existsb (veqb x) l) eqn:E; auto. apply existsb_exists in E. destruct E as (y & Y & V). rewrite A in V; auto.
Qed.
Lemma FOP_snoc : forall A (R : A -> A -> Prop) l x, ForallOrdPairs R l -> (forall y, In y l -> R y x) -> ForallOrdPairs R (l ++ [x]).
Proof.
  intros A R l x. induction l as [|y r IH]; intros F X; cbn [app]; [constructor; constructor|]. inversion F as [|? ? F1 F2]; subst. constructor.
  - apply Forall_app. split; auto. constructor; [apply X; cbn; auto | constructor].
  - apply IH; auto. intros z Z. apply X. cbn. auto.
Qed.
Lemma uniq_spec : forall l s, different s -> different (uniq s l) /\ (forall x, In x (uniq s l) -> In x s \/ In x l) /\ (forall x, In x s -> In x (uniq s l)) /\ (forall x, In x l -> existsb (veqb x) (uniq s l) = true).
Proof.
  induction l as [|x r IH]; intros s D; cbn [uniq].
  - repeat split; auto.
  - destruct (existsb (veqb x) s) eqn:E.
    + destruct (IH s D) as (A & B & C & F). split; auto. split; [intros y Y; destruct (B y Y); cbn; auto|]. split; auto. intros y [<-|I]; auto. apply existsb_exists in E. destruct E as (z & Z & V). apply existsb_exists. exists z. auto.
    + assert (D' : different (s ++ [x])) by (apply FOP_snoc; auto; intros y Y; rewrite veqb_sym; apply (proj1 (existsb_no x s) E y Y)). destruct (IH _ D') as (A & B & C & F). split; auto. split; [|split].
      * intros y Y. destruct (B y Y) as [K|K]; [|cbn; auto]. apply in_app_iff in K. cbn in *. tauto.
      * intros y Y. apply C. apply in_app_iff. auto.
      * intros y [<-|I]; auto. apply existsb_exists. exists x. split; [apply C, in_app_iff; cbn; auto | apply veqb_refl].
Qed.
Lemma kins_in : forall A (key : A -> Q * number_key) x l y, In y (kins key x l) <-> y = x \/ In y l.
Proof.
  intros A key x l y. induction l as [|z r IH]; cbn [kins]; [cbn; firstorder|]. destruct (key_ltb (key x) (key z)); cbn [In]; [firstorder|]. rewrite IH. cbn. tauto.
Qed.
Lemma ksort_in0 : forall A (key : A -> Q * number_key) l a y, In y (fold_left (fun acc x => kins key x acc) l a) <-> In y a \/ In y l.
Proof. intros A key l. induction l as [|x r IH]; intros a y; cbn [fold_left]; [cbn; tauto|]. rewrite IH, kins_in. cbn. firstorder. Qed.
Lemma ksort_in : forall A (key : A -> Q * number_key) l y, In y (ksort key l) <-> In y l.
Proof. intros. unfold ksort. rewrite ksort_in0. cbn. tauto. Qed.
Lemma FOP_kins : forall A (R : A -> A -> Prop) (key : A -> Q * number_key) x l, ForallOrdPairs R l -> (forall y, In y l -> (key_ltb (key x) (key y) = false -> R y x) /\ (forall z, In z l -> key_ltb (key x) (key z) = true -> z = y \/ R z y -> R x y)) -> ForallOrdPairs R (kins key x l).
Proof.
  intros A R key x l. induction l as [|y r IH]; intros F X; cbn [kins]; [constructor; constructor|]. inversion F as [|? ? F1 F2]; subst. destruct (key_ltb (key x) (key y)) eqn:K.
  - constructor; auto. rewrite Forall_forall in F1. constructor; [eapply (proj2 (X y (or_introl eq_refl)) y); cbn; auto|]. apply Forall_forall. intros z Z. eapply (proj2 (X z (or_intror Z)) y); cbn; auto.
  - constructor.
    + apply Forall_forall. intros z Z. apply kins_in in Z. destruct Z as [->|Z]; [apply X; cbn; auto|]. rewrite Forall_forall in F1. auto.
    + apply IH; auto. intros z Z. destruct (X z (or_intror Z)) as (X1 & X2). split; auto. intros u U. apply X2. cbn. auto.
Qed.
(** the order of sorted(): -inf, numbers, other strings in order *)
Definition ordered (low : nat -> nat) (x y : val) : Prop :=
  let num := fun v => match v with Num q => Some q | NegInf => None | Oth _ o => o end in let place := fun v => match v with Oth i _ => low i | _ => 0%nat end in
  match x, y with
  | NegInf, _ => True
  | _, NegInf => False
  | _, _ => match num x, num y with Some p, Some q => p <= q | Some _, None => True | None, Some _ => False | None, None => (place x <= place y)%nat end
  end.
Lemma nk_ordered : forall low x y, nk_ltb (num_key low y) (num_key low x) = false <-> ordered low x y.
Proof.
  intros low [p| |i [p|]] [q| |j [q|]]; cbn [num_key nk_ltb]; unfold ordered; cbv zeta; rewrite ?Qltb_false_iff, ?Nat.ltb_ge; try tauto; split; intros; try discriminate; try tauto; auto.
Qed.
Lemma nk_trans : forall a b c, nk_ltb b a = false -> nk_ltb c b = false -> nk_ltb c a = false.
Proof. intros [|p|i] [|q|j] [|r|k]; cbn [nk_ltb]; rewrite ?Qltb_false_iff, ?Nat.ltb_ge; try discriminate; auto; intros; [lra|lia]. Qed.
Lemma nk_asym : forall a b, nk_ltb a b = true -> nk_ltb b a = false.
Proof. intros [|p|i] [|q|j]; cbn [nk_ltb]; rewrite ?Qltb_false_iff, ?Qltb_iff, ?Nat.ltb_ge, ?Nat.ltb_lt; try discriminate; auto; intros; [lra|lia]. Qed.
Lemma key_false : forall a b, key_ltb a b = false <-> fst b < fst a \/ (fst b == fst a /\ nk_ltb (snd a) (snd b) = false).
Proof.
  intros [p a] [q b]. unfold key_ltb. cbn [fst snd]. rewrite orb_false_iff, andb_false_iff, Qltb_false_iff, Qeqb_false. split.
  - intros (A & B). destruct (Qlt_le_dec q p); auto. right. assert (p == q) by lra. split; [lra|]. tauto.
  - intros [A|(A & B)]; [split; [lra|left; lra]|]. split; [lra|auto].
Qed.
Lemma key_asym : forall a b, key_ltb a b = true -> key_ltb b a = false.
Proof.
  intros [p a] [q b]. intros E. apply key_false. cbn [fst snd]. unfold key_ltb in E. cbn [fst snd] in E. apply orb_true_iff in E. rewrite andb_true_iff, Qltb_iff, Qeq_bool_iff in E. destruct E as [E|(E & F)]; auto. right. split; auto. apply nk_asym. auto.
Qed.
Lemma key_trans : forall a b c, key_ltb b a = false -> key_ltb c b = false -> key_ltb c a = false.
Proof.
  intros a b c A B. apply key_false. apply key_false in A, B. destruct A as [A|(A & A')], B as [B|(B & B')]; try (left; lra). right. split; [lra|]. eapply nk_trans; eauto.
Qed.
Lemma ksort_sorted : forall A (key : A -> Q * number_key) l, ForallOrdPairs (fun x y => key_ltb (key y) (key x) = false) (ksort key l).
Proof.
  intros A key l. unfold ksort. assert (X : forall l a, ForallOrdPairs (fun x y => key_ltb (key y) (key x) = false) a -> ForallOrdPairs (fun x y => key_ltb (key y) (key x) = false) (fold_left (fun acc x => kins key x acc) l a)); [|apply X; constructor].
  clear l. induction l as [|x r IH]; intros a F; cbn [fold_left]; auto. apply IH. apply FOP_kins; auto. intros y Y. split; auto. intros z Z K [->|R]; [apply key_asym; auto|]. apply key_asym in K. eapply key_trans; eauto.
Qed.
Lemma different_kins : forall (key : val -> Q * number_key) x l, different l -> existsb (veqb x) l = false -> different (kins key x l).
Proof.
  intros key x l D E. apply FOP_kins; auto. intros y Y. pose proof (proj1 (existsb_no x l) E y Y) as V. split; [intros _; rewrite veqb_sym; auto|]. auto.
Qed.
Lemma different_ksort0 : forall (key : val -> Q * number_key) l a, different (a ++ l) -> different (fold_left (fun acc x => kins key x acc) l a).
Proof.
  intros key l. induction l as [|x r IH]; intros a D; cbn [fold_left]; [rewrite app_nil_r in D; auto|]. apply IH. assert (P : forall y, In y a -> veqb y x = false) by (intros y Y; clear - D Y; induction a as [|z a IHa]; [destruct Y|]; cbn in D; inversion D as [|? ? D1 D2]; subst; destruct Y as [->|Y]; auto; rewrite Forall_forall in D1; apply D1, in_app_iff; cbn; auto).
  assert (G : forall k b c, different (k ++ x :: r) -> (forall y, In y b <-> y = x \/ In y k) -> different b -> b = c -> different (c ++ r)).
  { intros k b c DK B DB <-. clear - DK B DB. assert (R : forall y z, In y b -> In z r -> veqb y z = false).
    { intros y z Y Z. apply B in Y. assert (DX : different (x :: r)) by (clear - DK; induction k as [|w k IHk]; auto; cbn in DK; inversion DK; subst; auto). destruct Y as [->|Y]; [inversion DX as [|? ? X1 X2]; subst; rewrite Forall_forall in X1; auto|].
      clear - DK Y Z. induction k as [|w k IHk]; [destruct Y|]. cbn in DK. inversion DK as [|? ? D1 D2]; subst. destruct Y as [->|Y]; auto. rewrite Forall_forall in D1. apply D1, in_app_iff. cbn. auto. }
    assert (DR : different r) by (clear - DK; induction k as [|w k IHk]; cbn in DK; inversion DK; subst; auto). clear - R DR DB. induction b as [|w b IHb]; auto. cbn. inversion DB as [|? ? D1 D2]; subst. constructor; [apply Forall_app; split; auto; apply Forall_forall; intros z Z; apply R; cbn; auto|]. apply IHb; auto. intros y z Y Z. apply R; cbn; auto. }
  eapply (G a (kins key x a)); eauto; [intros y; apply kins_in|]. apply different_kins; [|apply existsb_no; intros y Y; rewrite veqb_sym; auto]. clear - D. induction a as [|w a IHa]; [constructor|]. cbn in D. inversion D as [|? ? D1 D2]; subst. constructor; [|apply IHa; auto]. apply Forall_app in D1. tauto.
Qed.
Lemma different_ksort : forall key l, different l -> different (ksort key l). Proof. intros. unfold ksort. apply different_ksort0. auto. Qed.

Lemma total_ext_in : forall A (f g : A -> Q) l, (forall p, In p l -> f (fst p) == g (fst p)) -> total_of f l == total_of g l.
Proof. intros A f g l. induction l as [|[x w] r IH]; intros E; [reflexivity|]. cbn [total_of]. rewrite (E (x, w) (or_introl eq_refl)), IH; [reflexivity|]. intros p P. apply E. cbn. auto. Qed.
(** the weight of the values in vs *)
Lemma value_of_rows_share : forall vs v m h, traced v m h -> m_stats m = false -> exists c, value_of_rows vs v m = Mok c /\ c == share (m_level m) (is_in vs) h (v_now v).
Proof.
  intros vs v m h T S. unfold value_of_rows, share. destruct (m_level m) eqn:L.
  - destruct (C38_value_duration vs v m h T S L) as (m' & d & E & D). rewrite E. cbn [snd]. exists d. split; auto.
  - destruct (C40_value vs v m h T S L) as (N & m' & w & E & D). destruct (weighted m) eqn:W.
    + rewrite E. cbn [snd]. exists w. split; auto. rewrite D. apply (sumQ_filter_total (fun x => existsb (veqb x) vs)).
    + rewrite N. eexists. split; [reflexivity|]. destruct (unweighted v m h (traced_inv _ _ _ T) S W) as (_ & WN). rewrite <- (map_length fst), (map_filter_fst (fun x => existsb (veqb x) vs)). apply count_ones. intros x u I. destruct (mi_pla _ _ _ (traced_inv _ _ _ T) S L) as [_ PW _]. rewrite WN in PW. cbn in PW. rewrite Forall_forall in PW. unfold recorded in I. apply in_map_iff in I. destruct I as (p & F & I). apply in_rev in I. injection F as _ <-. apply (PW p I).
Qed.
Lemma weight_of_value_share : forall x v m h, traced v m h -> m_stats m = false -> weight_of_value v m x == share (m_level m) (is_in [x]) h (v_now v).
Proof.
  intros x v m h T S. unfold weight_of_value, share. destruct (m_level m) eqn:L.
  - destruct (C38_value_duration [x] v m h T S L) as (m' & d & E & D). rewrite E. cbn [snd]. exact D.
  - destruct (C40_value [x] v m h T S L) as (N & m' & w & E & D). rewrite E. cbn [snd]. rewrite D. apply (sumQ_filter_total (fun y => existsb (veqb y) [x])).
Qed.
Lemma FOP_impl : forall A (R R' : A -> A -> Prop) l, (forall x y, R x y -> R' x y) -> ForallOrdPairs R l -> ForallOrdPairs R' l.
Proof. intros A R R' l I F. induction F as [|x l F1 F2 IH]; constructor; auto. eapply Forall_impl; [|exact F1]. auto. Qed.

(** the values that values() sees *)
Lemma seen_on : forall v m h ex0 m' r, traced v m h -> m_stats m = false -> m_level m = true -> on_of h = true -> xweight ex0 false v m = (m', r) -> forall y, In y (fst r) <-> part ex0 y = true /\ exists t, t <= v_now v /\ level_at h t = Some y.
Proof.
  intros v m h ex0 m' r T S L ON E y. pose proof (traced_inv _ _ _ T) as I. pose proof (mi_lev _ _ _ I S L) as LEV. destruct (xweight_cinv v m h ex0 false m' r I (traced_cinv _ _ _ T) S E) as (_ & (_ & _ & G) & _). destruct (G ltac:(left; rewrite (mi_on _ _ _ I); auto)) as [FE _]. cbn [fst snd] in FE.
  assert (FR : fst (xweight0 ex0 false v m) = map fst (pairs (xweight0 ex0 false v m))) by (unfold pairs; symmetry; apply combine_map_fst; apply (minv_even v m h ex0 false I S)). rewrite FE, FR, xw_level by auto. split.
  - intro Y2. apply in_map_iff in Y2. destruct Y2 as ([y' w] & Y2 & Y3). cbn [fst] in Y2. subst y'. apply in_rev in Y3. apply filter_In in Y3. destruct Y3 as [Y3 Y4]. apply in_map_iff in Y3. destruct Y3 as ([x w'] & Y5 & Y6). cbn [fst snd] in *. rewrite cvt_no in Y5. injection Y5 as -> ->. apply andb_true_iff in Y4. destruct Y4 as [Y4 K]. rewrite keep_part in K. split; auto.
    destruct (durs_in _ _ _ _ Y6) as (t & IT). exists t. split; [eapply decr_all; eauto; apply (lv_decr _ _ _ LEV)|]. pose proof (lv_look _ _ _ LEV t) as LK. rewrite (look_entry _ _ _ _ _ (lv_decr _ _ _ LEV) IT) in LK. destruct (level_at h t) as [z|]; [congruence|]. rewrite LK in Y4. unfold m_off in Y4. rewrite veqb_refl in Y4. discriminate.
  - intros (K & t & TN & LA). destruct (levels_ok v m h T L y (level_at_levels _ _ _ LA)) as [O F]. pose proof (lv_look _ _ _ LEV t) as LK. rewrite LA in LK. destruct (look_in (m_off m) (m_e m) t) as [X|(s & X)]; rewrite LK in X; [rewrite X, veqb_refl in O; discriminate|].
    assert (D : exists w, In (y, w) (durs (v_now v) (m_e m))). { clear - X. revert X. generalize (v_now v). induction (m_e m) as [|[a b] l IH]; intros e X; [destruct X|]. cbn [durs]. destruct X as [X|X]; [injection X as -> ->; eexists; left; eauto|]. destruct (IH a X) as (w & W). exists w. right. auto. }
    destruct D as (w & D). apply in_map_iff. exists (y, w). split; auto. apply -> in_rev. apply filter_In. cbn [fst]. rewrite O, keep_part, K. split; auto. apply in_map_iff. exists (y, w). cbn [fst snd]. rewrite cvt_no. auto.
Qed.
Lemma seen_plain : forall v m h ex0 m' r, traced v m h -> m_stats m = false -> m_level m = false -> xweight ex0 false v m = (m', r) -> forall y, In y (fst r) <-> part ex0 y = true /\ exists w, In (y, w) (recorded h).
Proof.
  intros v m h ex0 m' r T S L E y. destruct (xweight_cinv v m h ex0 false m' r (traced_inv _ _ _ T) (traced_cinv _ _ _ T) S E) as (_ & (_ & _ & G3) & _). destruct (weq_trans _ _ _ (G3 (or_intror L)) (xw_plain v m h ex0 false (traced_inv _ _ _ T) S L)) as (FE & _). rewrite FE. unfold both. cbn [fst]. split.
  - intros Y. apply in_map_iff in Y. destruct Y as ((y' & w) & <- & Y). apply filter_In in Y. destruct Y as (Y & K). apply in_map_iff in Y. destruct Y as ((z & u) & F & Y). cbn [fst snd] in *. rewrite cvt_no in F. injection F as <- <-. rewrite keep_part in K. eauto.
  - intros (K & w & Y). apply in_map_iff. exists (y, w). split; auto. apply filter_In. cbn [fst]. rewrite keep_part. split; auto. apply in_map_iff. exists (y, w). cbn [fst snd]. rewrite cvt_no. auto.
Qed.
(** the values of the history: what was tallied, or the levels *)
Definition had (level : bool) (h : hist) (now : Q) (y : val) : Prop := if level then exists t, t <= now /\ level_at h t = Some y else exists w, In (y, w) (recorded h).
Lemma values_spec : forall low ex0 sw sd v m h, traced v m h -> m_stats m = false -> (if m_level m then sw else sd) = false -> let held := fun f => share (m_level m) f h (v_now v) in
  exists l m' r, values low ex0 false sw sd v m = Mok l /\ different l /\ xweight ex0 false v m = (m', r) /\ (forall x, existsb (veqb x) l = true <-> exists y, In y (fst r) /\ veqb x y = true) /\
  ForallOrdPairs (fun x y => if sw || sd then held (is_in [y]) < held (is_in [x]) \/ (held (is_in [x]) == held (is_in [y]) /\ ordered low x y) else ordered low x y) l.
Proof.
  intros low ex0 sw sd v m h T S FL held. unfold values. rewrite S, FL. destruct (xweight ex0 false v m) as [m' r] eqn:E. cbn [snd]. eexists _, m', r. split; [reflexivity|]. destruct (uniq_spec (fst r) [] ltac:(constructor)) as (U1 & U2 & _ & U4). set (key := fun y => _). split; [apply different_ksort; auto|]. split; auto. split.
  - intros x. rewrite existsb_exists. split.
    + intros (y & Y & V). apply ksort_in in Y. destruct (U2 y Y) as [[]|Y']. exists y. auto.
    + intros (y & Y & V). apply U4 in Y. apply existsb_exists in Y. destruct Y as (z & Z & VZ). exists z. split; [apply ksort_in; auto|]. eapply veqb_trans; eauto.
  - eapply FOP_impl; [|apply ksort_sorted]. intros x y K. cbn beta in K. apply key_false in K. unfold key in K. cbn [fst snd] in K. unfold held. pose proof (weight_of_value_share x v m h T S) as WX. pose proof (weight_of_value_share y v m h T S) as WY. destruct (sw || sd).
    + destruct K as [K|(K & O)]; [left; lra|]. right. split; [lra|]. apply nk_ordered. auto.
    + destruct K as [K|(_ & O)]; [lra|]. apply nk_ordered. auto.
Qed.

(** values(): each of the values once, in order of the numbers, or in order of decreasing weight or duration *)
Theorem C70_values : forall low ex0 sw sd v m h, traced v m h -> m_stats m = false -> (if m_level m then sw else sd) = false -> (m_level m = true -> on_of h = true) -> let held := fun f => share (m_level m) f h (v_now v) in
  exists l, values low ex0 false sw sd v m = Mok l /\ different l /\
  (forall x, existsb (veqb x) l = true <-> exists y, had (m_level m) h (v_now v) y /\ part ex0 y = true /\ veqb x y = true) /\
  ForallOrdPairs (fun x y => if sw || sd then held (is_in [y]) < held (is_in [x]) \/ (held (is_in [x]) == held (is_in [y]) /\ ordered low x y) else ordered low x y) l.
Proof.
  intros low ex0 sw sd v m h T S FL ON held. destruct (values_spec low ex0 sw sd v m h T S FL) as (l & m' & r & A & B & C & D & F). exists l. split; auto. split; auto. split; auto. intros x. rewrite D. unfold had. destruct (m_level m) eqn:L.
  - split; intros (y & Y); exists y; [destruct Y as (Y & V); apply (seen_on v m h ex0 m' r T S L (ON eq_refl) C) in Y; tauto|]. split; [apply (seen_on v m h ex0 m' r T S L (ON eq_refl) C)|]; tauto.
  - split; intros (y & Y); exists y; [destruct Y as (Y & V); apply (seen_plain v m h ex0 m' r T S L C) in Y; tauto|]. split; [apply (seen_plain v m h ex0 m' r T S L C)|]; tauto.
Qed.
(** a level monitor has no weights and the others have no durations *)
Theorem C70_values_wrong : forall low ex0 force sw sd v m, m_stats m = false -> (if m_level m then sw else sd) = true -> values low ex0 force sw sd v m = Mer MValue.
Proof. intros low ex0 force sw sd v m S F. unfold values. rewrite S, F. reflexivity. Qed.

(** ** The table of the values *)
Lemma remove1_in : forall x l y, different l -> (In y (remove1 x l) -> In y l /\ veqb x y = false) /\ (In y l -> veqb x y = false -> In y (remove1 x l)).
Proof.
  intros x l y. induction l as [|z r IH]; intros D; cbn [remove1]; [cbn; tauto|]. inversion D as [|? ? D1 D2]; subst. rewrite Forall_forall in D1. destruct (veqb x z) eqn:V.
  - split; [|intros [->|I] F; [congruence|auto]]. intros I. split; [cbn; auto|]. destruct (veqb x y) eqn:VY; auto. exfalso. assert (veqb z y = true) by (eapply veqb_trans; [rewrite veqb_sym; exact V|auto]). pose proof (D1 y I). congruence.
  - split; [intros [->|I]; [cbn; auto|]; destruct (proj1 (IH D2) I); cbn; auto|]. intros [->|I] F; cbn; auto. right. apply IH; auto.
Qed.
Lemma remove1_diff : forall x l, different l -> different (remove1 x l).
Proof.
  intros x l. induction l as [|z r IH]; intros D; cbn [remove1]; auto. inversion D as [|? ? D1 D2]; subst. destruct (veqb x z); auto. constructor; [|apply IH; auto]. rewrite Forall_forall in *. intros y Y. apply D1. apply (proj1 (remove1_in x r y D2) Y).
Qed.
Lemma rest_in : forall labels l, different l -> let rest := fold_left (fun acc x => if existsb (veqb x) acc then remove1 x acc else acc) labels l in different rest /\ forall y, In y rest <-> In y l /\ existsb (veqb y) labels = false.
Proof.
  induction labels as [|x r IH]; intros l D rest; cbn in rest; unfold rest; [split; auto; intros y; cbn; tauto|]. destruct (existsb (veqb x) l) eqn:E.
  - destruct (IH (remove1 x l) (remove1_diff x l D)) as (A & B). split; auto. intros y. rewrite B. cbn [existsb]. rewrite orb_false_iff, (veqb_sym y x). destruct (remove1_in x l y D) as (R1 & R2). split; [intros (P & Q); apply R1 in P; tauto | intros (P & Q & R); auto].
  - destruct (IH l D) as (A & B). split; auto. intros y. rewrite B. cbn [existsb]. rewrite orb_false_iff. split; [|tauto]. intros (P & Q). split; auto. split; auto. rewrite veqb_sym. apply (proj1 (existsb_no x l) E y P).
Qed.
Lemma dup_different : forall l, dup l = false <-> different l.
Proof.
  induction l as [|x r IH]; cbn [dup]; [split; [constructor|auto]|]. rewrite orb_false_iff, IH. split.
  - intros (A & B). constructor; auto. apply Forall_forall. apply existsb_no. auto.
  - intros D. inversion D as [|? ? D1 D2]; subst. split; auto. apply existsb_no. apply Forall_forall. auto.
Qed.
Lemma sumQ_cons : forall x l, sumQ (x :: l) == x + sumQ l. Proof. reflexivity. Qed.
Lemma is_in_sum : forall l z, different l -> sumQ (map (fun x => is_in [x] z) l) == is_in l z.
Proof.
  induction l as [|x r IH]; intros z D; [reflexivity|]. inversion D as [|? ? D1 D2]; subst. cbn [map]. rewrite sumQ_cons, IH by auto. unfold is_in. cbn [existsb]. rewrite orb_false_r. destruct (veqb z x) eqn:V; cbn [orb]; [|ring]. replace (existsb (veqb z) r) with false; [ring|]. symmetry. apply existsb_no. intros y Y. rewrite Forall_forall in D1. destruct (veqb z y) eqn:VY; auto. exfalso. assert (veqb x y = true) by (eapply veqb_trans; [rewrite veqb_sym; exact V|exact VY]). pose proof (D1 y Y). congruence.
Qed.
Lemma share_sum : forall l h now (vss : list (list val)), share l (fun z => sumQ (map (fun vs => is_in vs z) vss)) h now == sumQ (map (fun vs => share l (is_in vs) h now) vss).
Proof.
  intros l h now. induction vss as [|vs r IH]; [apply share_zero|]. cbn [map]. rewrite sumQ_cons, <- IH, <- share_plus. apply share_ext. intros z. apply sumQ_cons.
Qed.
Lemma value_rows_spec : forall total v m h l, traced v m h -> m_stats m = false -> exists rows, value_rows total l v m = Mok rows /\
  Forall2 (fun p r => y_label r = fst p /\ y_count r == share (m_level m) (is_in (snd p)) h (v_now v) /\ (~ total == 0 -> y_perc r * total == y_count r)) l rows.
Proof.
  intros total v m h l T S. induction l as [|(lb & vs) r IH]; cbn [value_rows]; [exists []; split; auto|]. destruct (value_of_rows_share vs v m h T S) as (c & -> & C). destruct IH as (rows & -> & F). eexists. split; [reflexivity|]. constructor; auto. cbn [y_label y_count y_perc fst snd]. split; auto. split; auto. intros N. apply Qeqb_false in N. rewrite N. apply Qeqb_false in N. field. auto.
Qed.
(** a row for each of the values, one for the rest: the counts add up to the total and the shares to 1 *)
Theorem C70_table : forall low given ex0 v m h, traced v m h -> m_stats m = false ->
  match given with None => ex0 = false \/ (m_level m = true -> on_of h = true) | Some l => l <> [] /\ different l /\ ex0 = false end ->
  let held := fun f => share (m_level m) f h (v_now v) in let total := held (fun x => if part ex0 x then 1 else 0) in
  exists all rows tail, values low ex0 false false false v m = Mok all /\ histogram_values low given ex0 v m = Mok rows /\
  map y_label rows = map LVal (match given with Some l => l | None => all end) ++ tail /\ (tail = [] \/ tail = [LRest]) /\
  (forall r x, In r rows -> y_label r = LVal x -> y_count r == held (is_in [x])) /\ sumQ (map y_count rows) == total /\ (~ total == 0 -> sumQ (map y_perc rows) == 1).
Proof.
  intros low given ex0 v m h T S G held total. destruct (values_spec low ex0 false false v m h T S ltac:(destruct (m_level m); auto)) as (all & m' & r & A & D & X & IN & _). exists all. unfold histogram_values. rewrite S, A.
  assert (FO : (match given with Some [] => true | _ => false end) = false) by (destruct given as [[|? ?]|]; auto; destruct G as (N & _); congruence). rewrite FO, X. cbn [snd]. destruct (xv_share v m h ex0 m' r T S X) as (EV & XV). assert (TT : sumQ (snd r) == total) by (rewrite (sumQ_total r EV), XV; reflexivity). set (t := sumQ (snd r)) in *. clearbody t.
  assert (DU : match given with Some l => dup l | None => false end = false) by (destruct given; auto; apply dup_different; tauto). rewrite DU. set (labels := match given with Some l => l | None => all end). assert (DL : different labels) by (unfold labels; destruct given; tauto).
  destruct (rest_in labels all D) as (RD & RI). set (rest := fold_left _ labels all) in *. cbv zeta in RI. clearbody rest. set (entries := map (fun x => (LVal x, [x])) labels ++ match rest with [] => [] | _ => [(LRest, rest)] end).
  destruct (value_rows_spec t v m h entries T S) as (rows & RE & F). exists rows, (match rest with [] => [] | _ => [LRest] end).
  assert (CS : forall (f : vrow -> Q) (g : label * list val -> Q), (forall p r, (y_label r = fst p /\ y_count r == share (m_level m) (is_in (snd p)) h (v_now v) /\ (~ t == 0 -> y_perc r * t == y_count r)) -> f r == g p) -> sumQ (map f rows) == sumQ (map g entries)).
  { intros f g FG. clear - F FG. induction F as [|p q l k H HF IH]; [reflexivity|]. cbn [map]. rewrite !sumQ_cons, IH, (FG _ _ H). reflexivity. }
  assert (SUM : sumQ (map (fun p => share (m_level m) (is_in (snd p)) h (v_now v)) entries) == total).
  { rewrite <- (map_map snd (fun vs => share (m_level m) (is_in vs) h (v_now v))), <- share_sum. unfold entries. rewrite map_app, map_map. cbn [snd].
    assert (E1 : forall z, sumQ (map (fun vs => is_in vs z) (map (fun x => [x]) labels ++ map snd match rest with [] => [] | _ => [(LRest, rest)] end)) == (if existsb (veqb z) labels then 1 else is_in all z)).
    { intros z. rewrite map_app, sumQ_app, map_map, is_in_sum by auto. assert (E2 : sumQ (map (fun vs => is_in vs z) (map snd match rest with [] => [] | _ => [(LRest, rest)] end)) == is_in rest z) by (destruct rest; cbn [map snd]; [reflexivity|rewrite sumQ_cons; cbn [sumQ]; ring]). rewrite E2. unfold is_in. destruct (existsb (veqb z) labels) eqn:ZL.
      - replace (existsb (veqb z) rest) with false; [ring|]. symmetry. apply existsb_no. intros y Y. apply RI in Y. destruct Y as (_ & Y). destruct (veqb z y) eqn:V; auto. exfalso. apply existsb_exists in ZL. destruct ZL as (u & U & VU). pose proof (proj1 (existsb_no y labels) Y u U) as W. assert (veqb y u = true) by (eapply veqb_trans; [rewrite veqb_sym; exact V|exact VU]). congruence.
      - replace (existsb (veqb z) rest) with (existsb (veqb z) all); [ring|]. apply eq_true_iff_eq. rewrite !existsb_exists. split; intros (y & Y & V); exists y; (split; [|exact V]); [|apply RI in Y; tauto]. apply RI. split; auto. apply existsb_no. intros u U. destruct (veqb y u) eqn:VU; auto. exfalso. pose proof (proj1 (existsb_no z labels) ZL u U) as W. assert (veqb z u = true) by (eapply veqb_trans; eauto). congruence. }
    rewrite (share_ext _ _ _ _ _ E1). assert (SEEN : forall p, In p (pairs r) -> existsb (veqb (fst p)) all = true) by (intros (a & b) P; unfold pairs in P; apply in_combine_l in P; apply IN; exists a; split; auto; apply veqb_refl).
    assert (ONE : total_of (fun z => if existsb (veqb z) labels then 1 else is_in all z) (pairs r) == total_of (fun _ => 1) (pairs r)) by (apply total_ext_in; intros p P; unfold is_in; rewrite (SEEN p P); destruct (existsb (veqb (fst p)) labels); reflexivity).
    rewrite !XV in ONE. unfold total, held. rewrite <- ONE. apply share_ext. intros z. destruct (part ex0 z) eqn:PZ; [reflexivity|]. assert (NF : ex0 = true) by (unfold part in PZ; destruct ex0; auto; discriminate). subst ex0. destruct given as [l|]; [destruct G as (_ & _ & G); discriminate|]. destruct G as [G|G]; [discriminate|]. unfold labels. replace (existsb (veqb z) all) with false; [unfold is_in|].
    - destruct (existsb (veqb z) all) eqn:EZ; [|reflexivity]. exfalso. apply IN in EZ. destruct EZ as (y & Y & V). assert (PY : part true y = true) by (destruct (m_level m) eqn:L; [apply (seen_on v m h true m' r T S L (G eq_refl) X y) in Y | apply (seen_plain v m h true m' r T S L X y) in Y]; tauto).
      unfold part in *. cbn [andb] in *. apply negb_false_iff in PZ. apply negb_true_iff in PY. assert (veqb y (Num 0) = true) by (eapply veqb_trans; [rewrite veqb_sym; exact V|exact PZ]). congruence.
    - symmetry. destruct (existsb (veqb z) all) eqn:EZ; [|reflexivity]. exfalso. apply IN in EZ. destruct EZ as (y & Y & V). assert (PY : part true y = true) by (destruct (m_level m) eqn:L; [apply (seen_on v m h true m' r T S L (G eq_refl) X y) in Y | apply (seen_plain v m h true m' r T S L X y) in Y]; tauto).
      unfold part in *. cbn [andb] in *. apply negb_false_iff in PZ. apply negb_true_iff in PY. assert (veqb y (Num 0) = true) by (eapply veqb_trans; [rewrite veqb_sym; exact V|exact PZ]). congruence. }
  split; auto. split; [exact RE|]. split; [|split; [|split; [|split]]].
  - assert (ML : map y_label rows = map fst entries) by (clear - F; induction F as [|p q l k H HF IH]; auto; cbn [map]; rewrite IH; destruct H as (-> & _); auto). rewrite ML. unfold entries. rewrite map_app, map_map. cbn [fst]. f_equal. destruct rest; auto.
  - destruct rest; auto.
  - intros q x Q1 Q2. assert (EX : exists p, In p entries /\ fst p = LVal x /\ y_count q == share (m_level m) (is_in (snd p)) h (v_now v)) by (clear - F Q1 Q2; induction F as [|p q' l k H HF IH]; [destruct Q1|]; destruct Q1 as [->|Q1]; [exists p; destruct H as (H1 & H2 & _); split; [cbn; auto|]; split; [congruence|auto]|]; destruct (IH Q1) as (p' & P1 & P2); exists p'; split; [cbn; auto|auto]).
    destruct EX as (p & P1 & P2 & P3). unfold entries in P1. apply in_app_iff in P1. destruct P1 as [P1|P1].
    + apply in_map_iff in P1. destruct P1 as (y & <- & _). cbn [fst snd] in *. injection P2 as ->. exact P3.
    + destruct rest; [destruct P1|]. destruct P1 as [<-|[]]. discriminate.
  - rewrite (CS y_count (fun p => share (m_level m) (is_in (snd p)) h (v_now v))); auto. intros p q (_ & P & _). exact P.
  - intros N. rewrite <- TT in N. rewrite (CS y_perc (fun p => share (m_level m) (is_in (snd p)) h (v_now v) * / t)).
    + assert (M : forall l : list (label * list val), sumQ (map (fun p => share (m_level m) (is_in (snd p)) h (v_now v) * / t) l) == sumQ (map (fun p => share (m_level m) (is_in (snd p)) h (v_now v)) l) * / t) by (induction l as [|p l IHl]; cbn [map]; [cbn; ring|]; rewrite !sumQ_cons, IHl; ring). rewrite M, SUM, <- TT. field. auto.
    + intros p q (_ & P1 & P2). rewrite <- P1, <- (P2 N). field. auto.
Qed.
Theorem C70_table_twice : forall low l ex0 v m, m_stats m = false -> ~ different l -> histogram_values low (Some l) ex0 v m = Mer MValue.
Proof.
  intros low l ex0 v m S D. unfold histogram_values, values. rewrite S. replace (if m_level m then false else false) with false by (destruct (m_level m); auto). destruct (dup l) eqn:U; auto. apply dup_different in U. contradiction.
Qed.

(** ** Where it does not hold *)
(** with ex0 the total leaves the zeros out, but the counts of the bins do not: the shares add up to more than 100% *)
Definition story_f0 := story false TAny false true (Num 0) [OTally (Num 0) 1; OTally (Num 3) 1; OTally (Num 0) 1].
Theorem C70_ex0_refuted : exists v m h n low width k r, traced v m h /\ m_stats m = false /\ (0 <= n)%Z /\ 0 <= width /\ histogram (Some n) (Some low) (Some width) true v m = Mok (k ++ [r]) /\ w_cum r == 3.
Proof.
  exists (sv story_f0), (sm story_f0), (sh story_f0), 4%Z, 0, 1. destruct (histogram (Some 4%Z) (Some 0) (Some 1) true (sv story_f0) (sm story_f0)) as [l|] eqn:E; [|vm_compute in E; discriminate]. vm_compute in E. injection E as <-. eexists [_; _; _; _; _], _. split; [apply story_after; vm_compute; reflexivity|]. split; [vm_compute; reflexivity|]. split; [lia|]. split; [lra|]. split; [cbn [app]; reflexivity|]. vm_compute. reflexivity.
Qed.
(** the same for a table of given values, one of which is 0 *)
Theorem C70_table_ex0_refuted : exists low l v m h rows, traced v m h /\ m_stats m = false /\ l <> [] /\ different l /\ histogram_values low (Some l) true v m = Mok rows /\ sumQ (map y_perc rows) == 3.
Proof.
  destruct (histogram_values (fun i => i) (Some [Num 0]) true (sv story_f0) (sm story_f0)) as [rows|] eqn:E; [|vm_compute in E; discriminate]. exists (fun i => i), [Num 0], (sv story_f0), (sm story_f0), (sh story_f0), rows. split; [apply story_after; vm_compute; reflexivity|]. split; [vm_compute; reflexivity|]. split; [discriminate|]. split; [constructor; constructor|]. split; auto. vm_compute in E. injection E as <-. vm_compute. reflexivity.
Qed.
(** a range that is too wide gives more than 30 bins *)
Definition story_f1 := story false TAny false true (Num 0) [OTally (Num 0) 1; OTally (Num 200000000000) 1].
Theorem C70_wide_refuted : exists v m h width low n, traced v m h /\ m_stats m = false /\ histogram_autoscale false v m = Mok (width, low, n) /\ n = 40%Z.
Proof.
  destruct (histogram_autoscale false (sv story_f1) (sm story_f1)) as [((w & l) & n)|] eqn:E; [|vm_compute in E; discriminate]. exists (sv story_f1), (sm story_f1), (sh story_f1), w, l, n. split; [apply story_after; vm_compute; reflexivity|]. split; [vm_compute; reflexivity|]. split; auto. vm_compute in E. injection E as _ _ <-. reflexivity.
Qed.
(** when a level monitor is switched off, values() still gives what it gave before in the same moment: here also a value that the level has at no time *)
Definition story_f3 := story true TAny false true (Num 2) [OTick 1; OTally (Num 9) 1; OStat false false; OMonitor false].
Theorem C70_values_off_refuted : exists low v m h l, traced v m h /\ m_stats m = false /\ m_level m = true /\ values low false false false false v m = Mok l /\ In (Num 9) l /\ forall t, level_at h t <> Some (Num 9).
Proof.
  exists (fun i => i), (sv story_f3), (sm story_f3), (sh story_f3), [Num 2; Num 9]. split; [apply story_after; vm_compute; reflexivity|]. split; [vm_compute; reflexivity|]. split; [vm_compute; reflexivity|]. split; [vm_compute; reflexivity|]. split; [cbn; auto|]. intros t. assert (H : exists h, sh story_f3 = h) by eauto. destruct H as (h & H). rewrite H. vm_compute in H. subst h. cbn [level_at]. repeat match goal with |- context [Qle_bool ?a ?b] => destruct (Qle_bool a b) eqn:? end; cbn; discriminate.
Qed.
(** ** Cases *)
Definition story_f2 := story false TAny false true (Num 0) [OTally (Num (5 # 2)) 1; OTally (Num 47) 2; OTally (Num (-3)) 1; OTally (Num 47) 1; OTally (Oth 3 (Some 8)) 1; OTally (Num 0) 2].
Definition show (r : mres (list row)) : list (Q * Q * Q) := match r with Mok l => map (fun x => (Qred (w_count x), Qred (w_perc x), Qred (w_cum x))) l | _ => [] end.
Example C70_case_histogram : traced (sv story_f2) (sm story_f2) (sh story_f2) /\ m_stats (sm story_f2) = false /\
  show (histogram (Some 2%Z) (Some 0) (Some 5) false (sv story_f2) (sm story_f2)) = [(3, 3 # 8, 3 # 8); (1, 1 # 8, 1 # 2); (1, 1 # 8, 5 # 8); (3, 3 # 8, 1)].
Proof. split; [apply story_after; vm_compute; reflexivity|]. split; vm_compute; reflexivity. Qed.
Example C70_case_autoscale : (match histogram_autoscale false (sv story_f2) (sm story_f2) with Mok (w, l, n) => (Qred w, Qred l, n) | _ => (0, 0, 0%Z) end) = (2, -4, 26%Z) /\ nice 2 /\ ~ area (m_level (sm story_f2)) false (fun _ => 1) (sh story_f2) (v_now (sv story_f2)) == 0.
Proof. split; [vm_compute; reflexivity|]. split; [exists 0%nat, 2%Z; split; [lia|]; split; [cbn; auto|reflexivity]|]. vm_compute. discriminate. Qed.
Example C70_case_values : values (fun i => i) false false false false (sv story_f2) (sm story_f2) = Mok [Num (-3); Num 0; Num (5 # 2); Oth 3 (Some 8); Num 47] /\ values (fun i => i) false false true false (sv story_f2) (sm story_f2) = Mok [Num 47; Num 0; Num (-3); Num (5 # 2); Oth 3 (Some 8)] /\
  values (fun i => i) true false false false (sv story1) (sm story1) = Mok [Num 3; Num 5; Num 7] /\ values (fun i => i) false false false true (sv story1) (sm story1) = Mok [Num 3; Num 5; Num 7] /\ traced (sv story1) (sm story1) (sh story1) /\ on_of (sh story1) = true.
Proof. do 4 (split; [vm_compute; reflexivity|]). split; [apply story_after; vm_compute; reflexivity | vm_compute; reflexivity]. Qed.
Definition showv (r : mres (list vrow)) : list (label * Q) := match r with Mok l => map (fun x => (y_label x, Qred (y_count x))) l | _ => [] end.
Example C70_case_table : showv (histogram_values (fun i => i) (Some [Num 47; Num 1; Oth 3 None]) false (sv story_f2) (sm story_f2)) = [(LVal (Num 47), 3); (LVal (Num 1), 0); (LVal (Oth 3 None), 1); (LRest, 4)] /\ different [Num 47; Num 1; Oth 3 None] /\
  showv (histogram_values (fun i => i) None true (sv story_f2) (sm story_f2)) = [(LVal (Num (-3)), 1); (LVal (Num (5 # 2)), 1); (LVal (Oth 3 (Some 8)), 1); (LVal (Num 47), 3)].
Proof. split; [vm_compute; reflexivity|]. split; [|vm_compute; reflexivity]. repeat constructor. Qed.
Print Assumptions C70_histogram.
Print Assumptions C70_complete.
Print Assumptions C70_autoscale.
Print Assumptions C70_values.
Print Assumptions C70_values_wrong.
Print Assumptions C70_table.
Print Assumptions C70_table_twice.
Print Assumptions C70_ex0_refuted.
Print Assumptions C70_table_ex0_refuted.
Print Assumptions C70_wide_refuted.
Print Assumptions C70_values_off_refuted.
