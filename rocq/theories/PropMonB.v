(** Percentiles of monitors: C42 *)
From Coq Require Import QArith Qround Lqa List Bool Arith ZArith Lia Permutation Sorting.Sorted.
From Verif Require Import Base Util PropUtil Mon MonSpec MonP MonQ MonR PropMon.
Import ListNotations.
Open Scope Q_scope.

(** *** sorting *)
Definition kle (a b : Q * Q) : Prop := fst a <= fst b.
Lemma ins_perm : forall p l, Permutation (p :: l) (ins p l).
Proof. intros p. induction l as [|a r IH]; cbn [ins]; auto. destruct (Qltb (fst p) (fst a)); auto. rewrite perm_swap. constructor. auto. Qed.
Lemma ins_all : forall (P : Q * Q -> Prop) p l, P p -> Forall P l -> Forall P (ins p l).
Proof. intros P p l H F. induction F; cbn [ins]; auto. destruct (Qltb _ _); auto. Qed.
Lemma ins_srt : forall p l, StronglySorted kle l -> StronglySorted kle (ins p l).
Proof.
  intros p l S. induction S as [|a l S IH F]; cbn [ins]; [constructor; auto; constructor|]. destruct (Qltb (fst p) (fst a)) eqn:E.
  - apply Qltb_iff in E. constructor; [constructor; auto|]. constructor; [unfold kle; lra|]. eapply Forall_impl; [|exact F]. intros b B. unfold kle in *. lra.
  - apply Qltb_false_iff in E. constructor; auto. apply ins_all; auto.
Qed.
Lemma psort_from_ok : forall l acc, StronglySorted kle acc -> StronglySorted kle (psort_from acc l) /\ Permutation (acc ++ l) (psort_from acc l).
Proof.
  induction l as [|p r IH]; intros acc S; cbn [psort_from]; [rewrite app_nil_r; auto|]. destruct (IH (ins p acc) (ins_srt p acc S)) as [A B]. split; auto.
  rewrite <- B. rewrite <- Permutation_middle. change (p :: acc ++ r) with ((p :: acc) ++ r). apply Permutation_app_tail. apply ins_perm.
Qed.
Lemma psort_srt : forall l, StronglySorted kle (psort l).
Proof. intro l. apply (psort_from_ok l []). constructor. Qed.
Lemma psort_perm : forall l, Permutation l (psort l).
Proof. intro l. apply (psort_from_ok l []). constructor. Qed.

(** *** sums over a sorted list *)
Definition X (s : list (Q * Q)) (k : nat) : Q := fst (nth k s (0, 0)).
Definition part (s : list (Q * Q)) (k : nat) : Q := sumQ (map snd (firstn k s)).
Definition nonneg (s : list (Q * Q)) : Prop := Forall (fun p => 0 <= snd p) s.
Lemma srt_nth : forall s, StronglySorted kle s -> forall i j, (i <= j)%nat -> (j < length s)%nat -> X s i <= X s j.
Proof.
  intros s S. induction S as [|a l S IH F]; intros i j I J; cbn [length] in J; [lia|]. destruct i as [|i], j as [|j]; try lia; unfold X in *; cbn [nth]; try lra.
  - rewrite Forall_forall in F. apply F. apply nth_In. lia.
  - apply IH; lia.
Qed.
Lemma total_perm : forall (g : Q -> Q) a b, Permutation a b -> total_of g a == total_of g b.
Proof. intros g a b P. induction P as [|[x w] l l' P IH|[x w] [y u] l|a b c P1 I1 P2 I2]; cbn [total_of]; try lra. Qed.
Lemma total_app : forall (g : Q -> Q) a b, total_of g (a ++ b) == total_of g a + total_of g b.
Proof. intros g a b. induction a as [|[x w] r IH]; cbn [app total_of]; [ring|]. rewrite IH. ring. Qed.
Lemma total_le : forall g s, (forall x, 0 <= g x <= 1) -> nonneg s -> total_of g s <= sumQ (map snd s).
Proof. intros g s G N. induction N as [|[x w] l H N IH]; cbn [total_of map snd sumQ]; [lra|]. cbn [snd] in H. pose proof (G x). assert (g x * w <= w) by nra. lra. Qed.
Lemma total_zero : forall (g : Q -> Q) s, (forall p, In p s -> g (fst p) == 0) -> total_of g s == 0.
Proof. intros g s G. induction s as [|[x w] l IH]; cbn [total_of]; [reflexivity|]. rewrite IH by (intros; apply G; right; auto). pose proof (G (x, w) (or_introl eq_refl)) as Z. cbn [fst] in Z. rewrite Z. ring. Qed.
Lemma total_one : forall (g : Q -> Q) s, (forall p, In p s -> g (fst p) == 1) -> total_of g s == sumQ (map snd s).
Proof. intros g s G. induction s as [|[x w] l IH]; cbn [total_of map snd sumQ]; [reflexivity|]. rewrite IH by (intros; apply G; right; auto). pose proof (G (x, w) (or_introl eq_refl)) as Z. cbn [fst] in Z. rewrite Z. ring. Qed.
Lemma total_pos : forall g s, (forall x, 0 <= g x <= 1) -> nonneg s -> 0 <= total_of g s.
Proof. intros g s G N. induction N as [|[x w] l H N IH]; cbn [total_of]; [lra|]. cbn [snd] in H. pose proof (G x). assert (0 <= g x * w) by nra. lra. Qed.
Lemma nonneg_split : forall s k, nonneg s -> nonneg (firstn k s) /\ nonneg (skipn k s).
Proof. intros s k N. rewrite <- (firstn_skipn k s) in N. apply Forall_app in N. auto. Qed.
Lemma in_firstn : forall (s : list (Q * Q)) k p, In p (firstn k s) -> exists i, (i < k)%nat /\ (i < length s)%nat /\ p = nth i s (0, 0).
Proof.
  intros s k p I. apply In_nth with (d := (0, 0)) in I. destruct I as (i & L & E). rewrite firstn_length in L. exists i. split; [lia|]. split; [lia|]. rewrite <- E. clear E. revert k L. revert i. induction s as [|a r IH]; intros [|i] [|k] L; cbn in *; auto; try lia. apply IH. lia.
Qed.
Lemma in_skipn : forall (s : list (Q * Q)) k p, In p (skipn k s) -> exists i, (k <= i)%nat /\ (i < length s)%nat /\ p = nth i s (0, 0).
Proof.
  induction s as [|a r IH]; intros [|k] p I; cbn [skipn] in I; try (destruct I; fail).
  - apply In_nth with (d := (0, 0)) in I. destruct I as (i & L & E). exists i. repeat split; auto; lia.
  - destruct (IH k p I) as (i & A & B & C). exists (S i). cbn [length nth]. repeat split; auto; lia.
Qed.
Definition below (y x : Q) : Q := if Qltb x y then 1 else 0.
Definition upto (y x : Q) : Q := if Qle_bool x y then 1 else 0.
Lemma below01 : forall y x, 0 <= below y x <= 1. Proof. intros. unfold below. destruct (Qltb x y); lra. Qed.
Lemma upto01 : forall y x, 0 <= upto y x <= 1. Proof. intros. unfold upto. destruct (Qle_bool x y); lra. Qed.
(** at most the first k values are below y *)
Lemma below_part : forall s k y, StronglySorted kle s -> nonneg s -> ((k < length s)%nat -> y <= X s k) -> total_of (below y) s <= part s k.
Proof.
  intros s k y S N L. rewrite <- (firstn_skipn k s) at 1. rewrite total_app. destruct (nonneg_split s k N) as [N1 N2].
  assert (Z : total_of (below y) (skipn k s) == 0). { apply total_zero. intros p P. apply in_skipn in P. destruct P as (i & A & B & ->). fold (X s i). unfold below. assert (Q : Qltb (X s i) y = false); [|rewrite Q; reflexivity]. apply Qltb_false_iff. pose proof (srt_nth s S k i A B). pose proof (L ltac:(lia)). lra. }
  rewrite Z. pose proof (total_le (below y) (firstn k s) (below01 y) N1). unfold part. lra.
Qed.
(** at least the first k values are at most y *)
Lemma upto_part : forall s k y, StronglySorted kle s -> nonneg s -> (k < length s)%nat -> X s k <= y -> part s (S k) <= total_of (upto y) s.
Proof.
  intros s k y S N K L. rewrite <- (firstn_skipn (Datatypes.S k) s) at 2. rewrite total_app. destruct (nonneg_split s (Datatypes.S k) N) as [N1 N2].
  assert (Z : total_of (upto y) (firstn (Datatypes.S k) s) == part s (Datatypes.S k)). { apply total_one. intros p P. apply in_firstn in P. destruct P as (i & A & B & ->). fold (X s i). unfold upto. assert (Q : Qle_bool (X s i) y = true); [|rewrite Q; reflexivity]. apply Qle_bool_iff. pose proof (srt_nth s S i k ltac:(lia) K). lra. }
  rewrite Z. pose proof (total_pos (upto y) (skipn (Datatypes.S k) s) (upto01 y) N2). lra.
Qed.
Lemma part_mono : forall s i j, nonneg s -> (i <= j)%nat -> part s i <= part s j.
Proof.
  intros s i j N. revert i j. induction N as [|[x w] l H N IH]; intros i j L; unfold part in *; [rewrite !firstn_nil; lra|]. destruct i as [|i], j as [|j]; try lia; cbn [firstn map snd sumQ] in *; try lra.
  - pose proof (IH 0%nat j ltac:(lia)) as Z. cbn [firstn map sumQ] in Z. lra.
  - pose proof (IH i j ltac:(lia)). lra.
Qed.
Lemma part_all : forall s k, (length s <= k)%nat -> part s k = sumQ (map snd s).
Proof. intros s k L. unfold part. rewrite firstn_all2; auto. Qed.

(** *** the searches *)
Lemma scan_spec : forall f n k, match scan f n k with Some j => (k <= j < k + n)%nat /\ f j = true /\ forall i, (k <= i < j)%nat -> f i = false | None => forall i, (k <= i < k + n)%nat -> f i = false end.
Proof.
  intros f. induction n as [|n IH]; intro k; cbn [scan]; [intros; lia|]. destruct (f k) eqn:E.
  - split; [lia|]. split; auto. intros; lia.
  - specialize (IH (S k)). destruct (scan f n (S k)) as [j|].
    + destruct IH as (A & B & C). split; [lia|]. split; auto. intros i I. destruct (Nat.eq_dec i k); [subst; auto|]. apply C. lia.
    + intros i I. destruct (Nat.eq_dec i k); [subst; auto|]. apply IH. lia.
Qed.
Lemma nth_X : forall s k, (k < length s)%nat -> exists w, nth_error s k = Some (X s k, w).
Proof. intros s k L. unfold X. destruct (nth_error s k) as [[x w]|] eqn:E; [|apply nth_error_None in E; lia]. exists w. rewrite (nth_error_nth _ _ _ E). auto. Qed.
Lemma xs_X : forall s k, (k < length s)%nat -> xs_ s k = Mok (Some (X s k)).
Proof. intros s k L. unfold xs_. destruct (nth_X s k L) as [w ->]. auto. Qed.
Lemma avg_X : forall s k, (S k < length s)%nat -> avg s k = Mok (Some ((X s k + X s (S k)) / 2)).
Proof. intros s k L. unfold avg. destruct (nth_X s k ltac:(lia)) as [w ->]. destruct (nth_X s (S k) L) as [u ->]. auto. Qed.
(** the value chosen on a boundary *)
Definition choice (ip : ipol) (a b : Q) : Q := match ip with Linear | Midpoint => (a + b) / 2 | Lower => a | Higher => b | Nearest => a end.
Lemma choice_between : forall ip a b, a <= b -> a <= choice ip a b <= b.
Proof. intros ip a b L. assert (D : (a + b) / 2 == (1 # 2) * a + (1 # 2) * b) by field. destruct ip; cbn; rewrite ?D; lra. Qed.
Record pw (q : Q) (ip : ipol) (W : Q) (s : list (Q * Q)) (k : nat) (y : Q) : Prop := {
  pw_k : (k < length s)%nat; pw_lo : part s k < q * W; pw_hi : q * W <= part s (S k);
  pw_y : (~ part s (S k) == q * W /\ y = X s k) \/ (part s (S k) == q * W /\ (S k < length s)%nat /\ y = choice ip (X s k) (X s (S k))) }.
Lemma div_le : forall a W q, 0 < W -> (q <= a / W <-> q * W <= a).
Proof. intros a W q P. assert (E : a == a / W * W) by (field; lra). split; intro L; [rewrite E|]; [nra|]. rewrite E in L. nra. Qed.
Lemma div_eq : forall a W q, 0 < W -> (a / W == q <-> a == q * W).
Proof. intros a W q P. assert (E : a == a / W * W) by (field; lra). split; intro L; [rewrite E, L; reflexivity|]. rewrite L. field. lra. Qed.
Lemma perc_weighted_spec : forall q ip W s, nonneg s -> 0 < W -> sumQ (map snd s) == W -> 0 < q < 1 -> ip <> Nearest -> exists k y, perc_weighted q ip W s = Mok (Some y) /\ pw q ip W s k y.
Proof.
  intros q ip W s N PW SW Q IP. set (cum := fun k => sumQ (map snd (firstn (S k) s)) / W).
  assert (DEF : perc_weighted q ip W s = let k := match scan (fun k => Qle_bool q (cum k)) (length s) 0 with Some k => k | None => (length s - 1)%nat end in
    if negb (Qeq_bool (cum k) q) then xs_ s k else match ip with Linear | Midpoint => avg s k | Lower => xs_ s k | Higher => xs_ s (S k) | Nearest => Mer MValue end) by reflexivity.
  rewrite DEF. clear DEF. cbv zeta.
  assert (NE : (0 < length s)%nat) by (destruct s; cbn [length map sumQ] in *; [lra|lia]).
  pose proof (scan_spec (fun k => Qle_bool q (cum k)) (length s) 0) as SC.
  assert (CL : q <= cum (length s - 1)%nat). { unfold cum. apply div_le; auto. replace (S (length s - 1)) with (length s) by lia. rewrite firstn_all, SW. nra. }
  destruct (scan (fun k => Qle_bool q (cum k)) (length s) 0) as [k|]; [|exfalso; pose proof (SC (length s - 1)%nat ltac:(lia)) as Z; apply Qle_bool_false_iff in Z; lra].
  destruct SC as (K & A & B). apply Qle_bool_iff in A. assert (HI : q * W <= part s (S k)) by (apply div_le; auto).
  assert (LO : part s k < q * W). { destruct k as [|j]; [unfold part; cbn [firstn map sumQ]; nra|]. pose proof (B j ltac:(lia)) as Z. apply Qle_bool_false_iff in Z. unfold cum in Z. fold (part s (S j)) in Z. apply Qnot_le_lt. intro H. apply (Qlt_not_le _ _ Z). apply div_le; auto. }
  destruct (Qeq_bool (cum k) q) eqn:E; cbn [negb].
  - apply Qeqb_true in E. apply div_eq in E; auto. fold (part s (S k)) in E.
    assert (SK : (S k < length s)%nat). { destruct (Nat.lt_ge_cases (S k) (length s)) as [L|L]; auto. exfalso. rewrite part_all, SW in E by lia. nra. }
    exists k, (choice ip (X s k) (X s (S k))). split; [|split; auto; lia]. destruct ip; cbn [choice]; rewrite ?avg_X, ?xs_X by lia; auto. tauto.
  - apply Qeqb_false in E. exists k, (X s k). split; [apply xs_X; lia|]. split; auto; try lia. left. split; auto. intro H. apply E. apply div_eq; auto.
Qed.
Lemma pw_between : forall q ip W s k y, StronglySorted kle s -> pw q ip W s k y -> X s k <= y /\ ((S k < length s)%nat -> y <= X s (S k)).
Proof.
  intros q ip W s k y S [K LO HI [[A ->]|(A & B & ->)]].
  - split; [lra|]. intro L. apply srt_nth; auto.
  - pose proof (choice_between ip (X s k) (X s (Datatypes.S k)) (srt_nth s S k (Datatypes.S k) ltac:(lia) B)). tauto.
Qed.
Lemma pw_quantile : forall q ip W s k y, StronglySorted kle s -> nonneg s -> pw q ip W s k y -> total_of (below y) s <= q * W <= total_of (upto y) s.
Proof.
  intros q ip W s k y S N P. destruct (pw_between _ _ _ _ _ _ S P) as [B1 B2]. destruct P as [K LO HI C]. split.
  - destruct C as [[A ->]|(A & B & _)].
    + pose proof (below_part s k (X s k) S N ltac:(intros; lra)). lra.
    + pose proof (below_part s (Datatypes.S k) y S N B2). lra.
  - pose proof (upto_part s k y S N K B1). lra.
Qed.
Lemma pw_monotone : forall q1 q2 ip W s k1 k2 y1 y2, 0 < W -> StronglySorted kle s -> nonneg s -> q1 <= q2 -> pw q1 ip W s k1 y1 -> pw q2 ip W s k2 y2 -> y1 <= y2.
Proof.
  intros q1 q2 ip W s k1 k2 y1 y2 PW S N Q P1 P2. pose proof (pw_between _ _ _ _ _ _ S P1) as [A1 A2]. pose proof (pw_between _ _ _ _ _ _ S P2) as [B1 B2]. destruct P1 as [K1 L1 H1 C1], P2 as [K2 L2 H2 C2].
  assert (QW : q1 * W <= q2 * W) by nra.
  destruct (Nat.lt_trichotomy k1 k2) as [L|[E|L]].
  - pose proof (A2 ltac:(lia)). pose proof (srt_nth s S (Datatypes.S k1) k2 L K2). lra.
  - subst k2. destruct C1 as [[C1 ->]|(C1 & D1 & ->)]; auto. assert (EQ : part s (Datatypes.S k1) == q2 * W) by lra. destruct C2 as [[C2 _]|(C2 & D2 & ->)]; [tauto|lra].
  - exfalso. pose proof (part_mono s (Datatypes.S k2) k1 N L). lra.
Qed.

(** *** without weights *)
Definition nq (n : nat) : Q := inject_Z (Z.of_nat n).
Lemma nq_S : forall n, nq (S n) == nq n + 1. Proof. intro n. unfold nq. rewrite Nat2Z.inj_succ. unfold Z.succ. rewrite inject_Z_plus. reflexivity. Qed.
Lemma nq_le : forall a b, (a <= b)%nat -> nq a <= nq b. Proof. intros a b L. unfold nq. rewrite <- Zle_Qle. lia. Qed.
Definition spot (n k : nat) : Q := inject_Z (Z.of_nat k) / inject_Z (Z.of_nat n - 1).
Lemma spot0 : forall n, spot n 0 == 0. Proof. intro n. unfold spot. change (inject_Z (Z.of_nat 0)) with 0. unfold Qdiv. ring. Qed.
Record pp (q : Q) (s : list (Q * Q)) (k : nat) : Prop := { pp_k : (S k < length s)%nat; pp_lo : spot (length s) k <= q; pp_hi : q < spot (length s) (S k) }.
Definition pick (q : Q) (ip : ipol) (s : list (Q * Q)) (k : nat) : option Q :=
  match ip with
  | Linear => interpolate1 q (Fin (spot (length s) k)) (Fin (spot (length s) (S k))) (Some (X s k)) (Some (X s (S k)))
  | Lower => Some (X s k) | Higher => Some (X s (S k)) | Midpoint => Some ((X s k + X s (S k)) / 2)
  | Nearest => Some (if Qle_bool (q - spot (length s) k) (spot (length s) (S k) - q) then X s k else X s (S k))
  end.
Lemma spot_lt : forall n k, (2 <= n)%nat -> spot n k < spot n (S k).
Proof. intros n k N. unfold spot. assert (P : 0 < inject_Z (Z.of_nat n - 1)) by (change 0 with (inject_Z 0); rewrite <- Zlt_Qlt; lia). assert (E : inject_Z (Z.of_nat k) < inject_Z (Z.of_nat (S k))) by (rewrite <- Zlt_Qlt; lia). unfold Qdiv. apply Qmult_lt_compat_r; auto. apply Qinv_lt_0_compat. auto. Qed.
Lemma perc_plain_spec : forall q ip s, (2 <= length s)%nat -> 0 < q < 1 -> exists k, pp q s k /\ perc_plain q ip s = Mok (pick q ip s k).
Proof.
  intros q ip s L Q. unfold perc_plain. set (n := length s) in *. pose proof (scan_spec (fun k => Qltb q (inject_Z (Z.of_nat (S k)) / inject_Z (Z.of_nat n - 1))) (n - 1) 0) as SC.
  destruct (scan _ (n - 1) 0) as [k|].
  - destruct SC as (K & A & B). apply Qltb_iff in A. exists k. assert (P : pp q s k). { split; [lia| |exact A]. destruct k as [|j]; [rewrite spot0; lra|]. pose proof (B j ltac:(lia)) as Z. apply Qltb_false_iff in Z. exact Z. }
    split; auto. unfold pick. fold n. destruct ip; rewrite ?avg_X, ?xs_X by lia; auto.
    + destruct (nth_X s k ltac:(lia)) as [w ->]. destruct (nth_X s (S k) ltac:(lia)) as [u ->]. auto.
    + fold (spot n k) (spot n (S k)). destruct (Qle_bool _ _); auto.
  - exfalso. pose proof (SC (n - 2)%nat ltac:(lia)) as Z. apply Qltb_false_iff in Z. replace (Z.of_nat (S (n - 2))) with (Z.of_nat n - 1)%Z in Z by lia. assert (P : 0 < inject_Z (Z.of_nat n - 1)) by (change 0 with (inject_Z 0); rewrite <- Zlt_Qlt; lia). assert (E : inject_Z (Z.of_nat n - 1) / inject_Z (Z.of_nat n - 1) == 1) by (field; lra). rewrite E in Z. lra.
Qed.
Lemma pick_between : forall q ip s k, StronglySorted kle s -> pp q s k -> exists y, pick q ip s k = Some y /\ X s k <= y <= X s (S k).
Proof.
  intros q ip s k S [K LO HI]. pose proof (srt_nth s S k (Datatypes.S k) ltac:(lia) K) as XX. destruct ip; cbn [pick].
  - destruct (C54_between (spot (length s) k) (spot (length s) (Datatypes.S k)) (X s k) (X s (Datatypes.S k)) q ltac:(apply spot_lt; lia)) as (z & -> & Z & _). exists z. auto.
  - eexists. split; auto. lra.
  - eexists. split; auto. lra.
  - eexists. split; auto. apply (choice_between Midpoint); auto.
  - eexists. split; auto. destruct (Qle_bool _ _); lra.
Qed.
Lemma spot_mono : forall n i j, (2 <= n)%nat -> (i <= j)%nat -> spot n i <= spot n j.
Proof. intros n i j N L. induction L; [lra|]. pose proof (spot_lt n m N). lra. Qed.
Lemma pick_monotone : forall q1 q2 ip s k1 k2 y1 y2, StronglySorted kle s -> q1 <= q2 -> pp q1 s k1 -> pp q2 s k2 -> pick q1 ip s k1 = Some y1 -> pick q2 ip s k2 = Some y2 -> y1 <= y2.
Proof.
  intros q1 q2 ip s k1 k2 y1 y2 S Q P1 P2 E1 E2. destruct (pick_between q1 ip s k1 S P1) as (z1 & F1 & B1). destruct (pick_between q2 ip s k2 S P2) as (z2 & F2 & B2). assert (z1 = y1) by congruence. assert (z2 = y2) by congruence. subst z1 z2. pose proof (pp_k _ _ _ P1) as K1. pose proof (pp_k _ _ _ P2) as K2.
  destruct (Nat.lt_trichotomy k1 k2) as [L|[E|L]].
  - pose proof (srt_nth s S (Datatypes.S k1) k2 L ltac:(lia)). lra.
  - subst k2. pose proof (srt_nth s S k1 (Datatypes.S k1) ltac:(lia) K1) as XX. destruct ip; cbn [pick] in *; try (injection E1 as <-; injection E2 as <-; try lra).
    + destruct (C54_monotone (spot (length s) k1) (spot (length s) (Datatypes.S k1)) (X s k1) (X s (Datatypes.S k1)) q1 q2 ltac:(apply spot_lt; lia) Q) as (u & v & U & V & M & _). assert (u = y1) by congruence. assert (v = y2) by congruence. subst. auto.
    + destruct (Qle_bool (q1 - _) _) eqn:A; [destruct (Qle_bool (q2 - _) _); lra|]. destruct (Qle_bool (q2 - _) _) eqn:B; [|lra]. exfalso. apply Qle_bool_false_iff in A. apply Qle_bool_iff in B. lra.
  - exfalso. destruct P1 as [_ L1 _], P2 as [_ _ H2]. pose proof (spot_mono (length s) (Datatypes.S k2) k1 ltac:(lia) L). lra.
Qed.

(** *** the weights of a level monitor are not negative *)
Lemma durs_nonneg : forall l e, decr e l -> Forall (fun p => 0 <= snd p) (durs e l).
Proof. induction l as [|[t x] r IH]; intros e D; cbn [durs]; [constructor|]. destruct D as (A & B & C). constructor; [cbn [snd]; lra|]. apply IH. auto. Qed.
Lemma xw_nonneg : forall v m h ex0 force, Minv v m h -> m_stats m = false -> m_level m = true -> Forall (fun w => 0 <= w) (snd (xweight0 ex0 force v m)).
Proof.
  intros v m h ex0 force I S L. pose proof (lv_decr _ _ _ (mi_lev _ _ _ I S L)) as D. apply durs_nonneg in D. unfold xweight0. rewrite L. cbn [snd]. rewrite Forall_forall in *. intros w W. apply in_map_iff in W. destruct W as ([x u] & <- & W). apply filter_In in W. destruct W as [W _]. apply in_map_iff in W. destruct W as ([y z] & E & W). injection E as <- <-. apply in_rev in W. apply (D _ W).
Qed.
Definition Ninv (m : mon) : Prop := m_level m = true -> forall k t r, cget k (m_cache m) = Some (t, r) -> Forall (fun w => 0 <= w) (snd r).
Lemma ninv_same : forall m m', Ninv m -> m_level m' = m_level m -> m_cache m' = [] \/ m_cache m' = m_cache m -> Ninv m'.
Proof. intros m m' N L [E|E] LL k t r; rewrite E; [discriminate|]. apply N. congruence. Qed.
Lemma xweight_ninv : forall v m h ex0 force m' r, Minv v m h -> Ninv m -> m_stats m = false -> m_level m = true -> xweight ex0 force v m = (m', r) -> Ninv m' /\ Forall (fun w => 0 <= w) (snd r).
Proof.
  intros v m h ex0 force m' r I N S L E. pose proof (xw_nonneg v m h ex0 force I S L) as NN. unfold xweight in E.
  assert (NEW : Ninv (set_cache ((ex0, force, (v_now v, xweight0 ex0 force v m)) :: m_cache m) m)). { intros _ k t r0. cbn [set_cache m_cache]. rewrite cget_cons. destruct (key_eqb k (ex0, force)); [intro X0; injection X0 as <- <-; auto|apply N; auto]. }
  destruct (cget (ex0, force) (m_cache m)) as [[t r0]|] eqn:C; [destruct (Qeq_bool t (v_now v))|]; injection E as <- <-; auto. split; auto. eapply N; eauto.
Qed.
Lemma monitor_cache : forall v m b, m_gen m = false -> m_cache (fst (monitor (Some b) v m)) = [] \/ m_cache (fst (monitor (Some b) v m)) = m_cache m.
Proof.
  intros v m b G. destruct (m_stats m) eqn:S; [right; apply monitor_cache_stats; auto|]. unfold monitor. rewrite S, G, andb_false_r. cbn [set_on m_level]. destruct (m_level m); [|right; auto]. destruct b.
  - left. rewrite tally_cache by auto. cbn [set_on m_stats]. rewrite S. auto.
  - right. unfold tally_off. cbn [set_on m_gen m_e]. rewrite G. destruct (m_e m); auto.
Qed.
Lemma reset_cache : forall v m mo so, m_gen m = false -> m_cache (fst (reset mo so v m)) = [].
Proof.
  intros v m mo so G. unfold reset. rewrite G. set (m4 := if m_stats _ then _ else _).
  assert (G4 : m_gen m4 = false) by (unfold m4; destruct mo, so; cbn; repeat match goal with |- context [if ?b then _ else _] => destruct b end; cbn; auto).
  clearbody m4. destruct mo as [b|]; auto. destruct (monitor_cache v (set_cache [] m4) b G4) as [E|E]; rewrite E; auto.
Qed.
Theorem traced_ninv : forall v m h, traced v m h -> Ninv m.
Proof.
  assert (ST : forall v m h o v' m' u, traced v m h -> Ninv m -> op_ok o m -> mexec o (v, m) = ((v', m'), u) -> Ninv m').
  { intros v m h o v' m' u T C OK E. pose proof (traced_inv _ _ _ T) as I. pose proof (mi_gen _ _ _ I) as G. destruct (mexec_type o v m h _ u I OK E) as [_ LV]. cbn [snd] in LV.
    destruct o; cbn [mexec] in E.
    - destruct (tally x w v m) as [m1 u1] eqn:TA. injection E as <- <- <-. apply (ninv_same m); auto. pose proof (tally_cache v m x w G) as X0. rewrite TA in X0. cbn [fst] in X0. destruct (m_stats m); auto.
    - pose proof (monitor_cache v m b G) as X0. destruct (monitor (Some b) v m) as [m1 u1]. injection E as <- <- <-. apply (ninv_same m); auto.
    - pose proof (reset_cache v m mo so G) as X0. destruct (reset mo so v m) as [m1 u1]. injection E as <- <- <-. apply (ninv_same m); auto.
    - injection E as <- <- <-. auto.
    - injection E as <- <- <-. auto.
    - destruct (m_stats m) eqn:S; injection E as <- <- <-; auto. destruct (m_level m) eqn:L; [|intro; congruence]. destruct (xweight ex0 force v m) as [m1 r] eqn:X0. eapply xweight_ninv; eauto.
    - destruct (m_stats m) eqn:S, (m_level m) eqn:L; cbn [andb] in E; try (injection E as <- <- <-; auto; fail). pose proof (add_now_cache v m G) as X0. destruct (tally_add_now v m) as [m1 u1]. injection E as <- <- <-. cbn [fst] in X0. rewrite S in X0. apply (ninv_same m); auto. congruence. }
  intros v m h T. induction T as [level ty stats on init v m E OK|v m h o v' m' T IH OK E|v m h o v' m' e T IH OK E].
  - unfold create in E. match type of E with reset ?a ?b v ?m0 = _ => pose proof (reset_cache v m0 a b eq_refl) as X0 end. rewrite E in X0. cbn [fst] in X0. intros _ k t r. rewrite X0. discriminate.
  - eapply ST; eauto.
  - eapply ST; eauto.
Qed.

(** *** the theorems *)
(** no negative weights: always for level monitors; otherwise: the weights that are tallied *)
Definition weights_fine (m : mon) (h : hist) : Prop := m_level m = false -> forall x w, In (x, w) (recorded h) -> 0 <= w.
Lemma weights_fine_xw : forall v m h ex0 m' r, traced v m h -> m_stats m = false -> weights_fine m h -> xweight ex0 true v m = (m', r) -> Forall (fun w => 0 <= w) (snd r).
Proof.
  intros v m h ex0 m' r T S F E. destruct (m_level m) eqn:L.
  - eapply xweight_ninv; eauto using traced_inv, traced_ninv.
  - destruct (stat_xw_plain v m h ex0 m' r T S L E) as [_ W]. apply Forall_forall. intros w I. apply In_nth with (d := 0) in I. destruct I as (i & LI & <-).
    assert (FF : Forall2 (fun a b => a == b) (snd r) (map snd (data ex0 h))) by (unfold both in W; cbn [snd] in W; rewrite map_map in W; exact W).
    assert (LE : length (snd r) = length (map snd (data ex0 h))) by (eapply F2_length; eauto).
    assert (EQ : nth i (snd r) 0 == nth i (map snd (data ex0 h)) 0). { clear - FF. revert i. induction FF; intros [|i]; cbn; auto; reflexivity. }
    rewrite EQ. assert (IN : In (nth i (map snd (data ex0 h)) 0) (map snd (data ex0 h))) by (apply nth_In; lia). apply in_map_iff in IN. destruct IN as ([x u] & <- & IN). cbn [snd]. unfold data in IN. apply in_map_iff in IN. destruct IN as ([y z] & E2 & IN). injection E2 as <- <-. apply filter_In in IN. apply (F L y z). tauto.
Qed.
Definition srt (r : xw) : list (Q * Q) := psort (combine (map numq (fst r)) (snd r)).
Inductive outcome (q : Q) (ip : ipol) (wt : bool) (r : xw) : option Q -> Prop :=
| oc_min : q <= 0 -> outcome q ip wt r (min_of (fst r))
| oc_max : 100 <= q -> outcome q ip wt r (max_of (fst r))
| oc_one : forall a, 0 < q < 100 -> fst r = [a] -> outcome q ip wt r (Some (numq a))
| oc_none : 0 < q < 100 -> length (fst r) <> 1%nat -> sumQ (snd r) == 0 -> outcome q ip wt r None
| oc_w : forall k y, 0 < q < 100 -> wt = true -> length (fst r) <> 1%nat -> 0 < sumQ (snd r) -> pw (q / 100) ip (sumQ (snd r)) (srt r) k y -> outcome q ip wt r (Some y)
| oc_p : forall k y, 0 < q < 100 -> wt = false -> length (fst r) <> 1%nat -> pp (q / 100) (srt r) k -> pick (q / 100) ip (srt r) k = Some y -> outcome q ip wt r (Some y).
Lemma srt_perm : forall r, Permutation (combine (map numq (fst r)) (snd r)) (srt r). Proof. intro r. apply psort_perm. Qed.
Lemma srt_length : forall r, even r -> length (srt r) = length (fst r).
Proof. intros r E. rewrite <- (Permutation_length (srt_perm r)), combine_length, map_length. red in E. lia. Qed.
Lemma combine_snd : forall (a : list Q) (b : list Q), length a = length b -> map snd (combine a b) = b.
Proof. induction a as [|x a IH]; intros [|y b] L; cbn in *; auto; try discriminate. f_equal. apply IH. lia. Qed.
Lemma combine_fst : forall (a : list Q) (b : list Q), length a = length b -> map fst (combine a b) = a.
Proof. induction a as [|x a IH]; intros [|y b] L; cbn in *; auto; try discriminate. f_equal. apply IH. lia. Qed.
Lemma sumQ_perm : forall a b, Permutation a b -> sumQ a == sumQ b.
Proof. intros a b P. induction P; cbn [sumQ]; lra. Qed.
Lemma srt_sum : forall r, even r -> sumQ (map snd (srt r)) == sumQ (snd r).
Proof. intros r E. rewrite <- (sumQ_perm _ _ (Permutation_map snd (srt_perm r))), combine_snd; [reflexivity|]. rewrite map_length. auto. Qed.
Lemma srt_nonneg : forall r, even r -> Forall (fun w => 0 <= w) (snd r) -> nonneg (srt r).
Proof.
  intros r E F. unfold nonneg. apply (Permutation_Forall (srt_perm r)). apply Forall_forall. intros p P. rewrite Forall_forall in F. apply F. apply (in_map snd) in P. rewrite combine_snd in P; auto. rewrite map_length. auto.
Qed.
Lemma srt_total : forall r (g : Q -> Q), even r -> total_of g (srt r) == total_of (fun x => g (numq x)) (pairs r).
Proof.
  intros r g E. rewrite <- (total_perm _ _ _ (srt_perm r)). unfold pairs. destruct r as [x w]. cbn [fst snd]. clear E. revert w. induction x as [|a x IH]; intros [|b w]; cbn [map combine total_of]; try reflexivity. rewrite IH. reflexivity.
Qed.
Lemma srt_in : forall r k, even r -> (k < length (srt r))%nat -> In (X (srt r) k) (map numq (fst r)).
Proof.
  intros r k E L. pose proof (nth_In (srt r) (0, 0) L) as I. apply (Permutation_in _ (Permutation_sym (srt_perm r))) in I. apply (in_map fst) in I. rewrite combine_fst in I; auto. rewrite map_length. auto.
Qed.
Lemma percentile_outcome : forall q ex0 ip v m h m' r, traced v m h -> m_stats m = false -> weights_fine m h -> (ip = Nearest -> weighted m = false) -> xweight ex0 true v m = (m', r) ->
  exists res, snd (percentile q ex0 ip v m) = Mok res /\ outcome q ip (weighted m) r res.
Proof.
  intros q ex0 ip v m h m' r T S F N E. destruct (stat_xw v m h ex0 m' r T S E) as [EV _]. pose proof (weights_fine_xw v m h ex0 m' r T S F E) as NN. unfold percentile. rewrite S.
  assert (G : weighted m && match ip with Nearest => true | _ => false end = false) by (destruct ip; rewrite ?andb_false_r; auto; rewrite N; auto). rewrite G. clear G.
  set (q' := if Qltb q 0 then 0 else if Qltb 100 q then 100 else q).
  destruct (Qeq_bool q' 0) eqn:Q0.
  - assert (L : q <= 0). { unfold q' in Q0. destruct (Qltb q 0) eqn:A; [apply Qltb_iff in A; lra|]. destruct (Qltb 100 q) eqn:B; apply Qeqb_true in Q0; lra. }
    unfold minimum. rewrite S, E. cbn [snd]. eexists. split; [reflexivity|]. constructor. auto.
  - destruct (Qeq_bool q' 100) eqn:Q1.
    + assert (L : 100 <= q). { unfold q' in Q1. destruct (Qltb q 0) eqn:A; [apply Qeqb_true in Q1; lra|]. destruct (Qltb 100 q) eqn:B; [apply Qltb_iff in B; lra|]. apply Qeqb_true in Q1. lra. }
      unfold maximum. rewrite S, E. cbn [snd]. eexists. split; [reflexivity|]. apply oc_max. auto.
    + assert (L : 0 < q < 100 /\ q' = q). { unfold q' in *. destruct (Qltb q 0) eqn:A; [apply Qeqb_false in Q0; lra|]. destruct (Qltb 100 q) eqn:B; [apply Qeqb_false in Q1; lra|]. apply Qltb_false_iff in A, B. apply Qeqb_false in Q0, Q1. split; auto. lra. }
      destruct L as [L EQ]. rewrite EQ. clear EQ Q0 Q1. clearbody q'. clear q'. rewrite E. destruct r as [x w]. cbn [snd] in NN.
      assert (Q01 : 0 < q / 100 < 1) by (assert (D : q / 100 * 100 == q) by field; lra).
      assert (SNZ : ~ sumQ w == 0 -> 0 < sumQ w). { intro Z. assert (0 <= sumQ w); [|lra]. clear - NN. induction NN; cbn [sumQ]; lra. }
      destruct (Nat.eq_dec (length x) 1) as [L1|L1].
      * destruct x as [|a [|b x]]; try discriminate. cbn [snd]. eexists. split; [reflexivity|]. apply oc_one; auto.
      * match goal with |- context [snd ?t] => replace t with (if Qeq_bool (sumQ w) 0 then (m', @Mok (option Q) None) else (m', if weighted m then perc_weighted (q / 100) ip (sumQ w) (srt (x, w)) else perc_plain (q / 100) ip (srt (x, w)))) by (destruct x as [|? [|? ?]]; auto; cbn in L1; lia) end.
        destruct (Qeq_bool (sumQ w) 0) eqn:Z; cbn [snd].
        -- apply Qeqb_true in Z. eexists. split; [reflexivity|]. apply oc_none; auto.
        -- apply Qeqb_false in Z. destruct (weighted m) eqn:WM.
           ++ destruct (perc_weighted_spec (q / 100) ip (sumQ w) (srt (x, w))) as (k & y & -> & P); auto.
              ** apply srt_nonneg; auto.
              ** apply (srt_sum (x, w) EV).
              ** intro IP. specialize (N IP). congruence.
              ** eexists. split; [reflexivity|]. eapply oc_w; eauto.
           ++ assert (LS : (2 <= length (srt (x, w)))%nat). { rewrite srt_length by auto. cbn [fst]. destruct x as [|? [|? ?]]; cbn in *; try lia. red in EV. cbn in EV. destruct w; [cbn in Z; lra|discriminate]. }
              destruct (perc_plain_spec (q / 100) ip (srt (x, w)) LS Q01) as (k & P & ->). destruct (pick_between (q / 100) ip (srt (x, w)) k (psort_srt _) P) as (y & PY & _). rewrite PY. eexists. split; [reflexivity|]. eapply oc_p; eauto.
Qed.
Lemma outcome_between : forall q ip wt r y, even r -> outcome q ip wt r (Some y) -> (exists x, In x (map numq (fst r)) /\ x <= y) /\ (exists x, In x (map numq (fst r)) /\ y <= x).
Proof.
  intros q ip wt r y EV O. inversion O as [A E|A E|a A B E|A B C E|k z A B C D P E|k z A B C P K E].
  - pose proof (min_of_spec (fst r)) as M. rewrite E in M. destruct M as [(x & X1 & X2) _]. split; exists x; split; auto; lra.
  - pose proof (max_of_spec (fst r)) as M. rewrite E in M. destruct M as [(x & X1 & X2) _]. split; exists x; split; auto; lra.
  - rewrite B. split; exists (numq a); split; cbn; auto; lra.
  - subst z. destruct (pw_between _ _ _ _ _ _ (psort_srt _) P) as [P1 P2]. destruct P as [K LO HI [[_ ->]|(_ & SK & _)]].
    + split; exists (X (srt r) k); split; auto using srt_in; lra.
    + split; [exists (X (srt r) k)|exists (X (srt r) (S k))]; split; auto using srt_in.
  - subst z. destruct (pick_between (q / 100) ip (srt r) k (psort_srt _) P) as (y' & E' & P1). assert (y' = y) by congruence. subst y'. pose proof (pp_k _ _ _ P). split; [exists (X (srt r) k)|exists (X (srt r) (S k))]; split; try lra; apply srt_in; auto; lia.
Qed.
Lemma outcome_monotone : forall q1 q2 ip wt r y1 y2, even r -> Forall (fun w => 0 <= w) (snd r) -> q1 <= q2 -> outcome q1 ip wt r (Some y1) -> outcome q2 ip wt r (Some y2) -> y1 <= y2.
Proof.
  intros q1 q2 ip wt r y1 y2 EV NN Q O1 O2.
  assert (Q' : q1 / 100 <= q2 / 100) by (assert (D : q1 / 100 * 100 == q1) by field; assert (D2 : q2 / 100 * 100 == q2) by field; lra).
  assert (LOW : q1 <= 0 -> Some y1 = min_of (fst r) -> y1 <= y2). { intros _ M. destruct (outcome_between _ _ _ _ _ EV O2) as [(x & X1 & X2) _]. pose proof (min_of_spec (fst r)) as MS. rewrite <- M in MS. destruct MS as [_ MS]. pose proof (MS x X1). lra. }
  assert (HIGH : Some y2 = max_of (fst r) -> y1 <= y2). { intros M. destruct (outcome_between _ _ _ _ _ EV O1) as [_ (x & X1 & X2)]. pose proof (max_of_spec (fst r)) as MS. rewrite <- M in MS. destruct MS as [_ MS]. pose proof (MS x X1). lra. }
  inversion O1 as [A E|A E|a A B E|A B C E|k z A B C D P E|k z A B C P K E]; [auto| | | | ];
  inversion O2 as [A' E'|A' E'|a' A' B' E'|A' B' C' E'|k' z' A' B' C' D' P' E'|k' z' A' B' C' P' K' E']; try (rewrite ?E; apply HIGH; auto; fail); try (exfalso; lra); try (exfalso; congruence).
  - rewrite B in B'. injection B' as <-. lra.
  - exfalso. apply C'. rewrite B. auto.
  - exfalso. apply C'. rewrite B. auto.
  - exfalso. apply C. rewrite B'. auto.
  - subst z z'. eapply pw_monotone; [exact D|apply psort_srt| | |exact P|exact P']; auto. apply srt_nonneg; auto.
  - exfalso. apply C. rewrite B'. auto.
  - subst z z'. eapply pick_monotone; [apply psort_srt| |exact P|exact P'|exact K|exact K']; auto.
Qed.

(** ** C42: percentiles *)
(** the percentile is between the smallest and the largest value *)
Theorem C42_between : forall q ex0 ip v m h y, traced v m h -> m_stats m = false -> weights_fine m h -> snd (percentile q ex0 ip v m) = Mok (Some y) ->
  exists lo hi, snd (minimum ex0 v m) = Some lo /\ snd (maximum ex0 v m) = Some hi /\ lo <= y <= hi.
Proof.
  intros q ex0 ip v m h y T S F P. destruct (xweight ex0 true v m) as [m' r] eqn:E. destruct (stat_xw v m h ex0 m' r T S E) as [EV _].
  assert (N : ip = Nearest -> weighted m = false). { intros ->. destruct (weighted m) eqn:W; auto. unfold percentile in P. rewrite S, W in P. discriminate. }
  destruct (percentile_outcome q ex0 ip v m h m' r T S F N E) as (res & P' & O). rewrite P in P'. injection P' as <-. destruct (outcome_between _ _ _ _ _ EV O) as [(x1 & A1 & A2) (x2 & B1 & B2)].
  unfold minimum, maximum. rewrite S, E. cbn [snd]. pose proof (min_of_spec (fst r)) as MI. pose proof (max_of_spec (fst r)) as MA. destruct (min_of (fst r)) as [lo|]; cbn [least_spec] in MI; [|rewrite MI in A1; destruct A1]. destruct (max_of (fst r)) as [hi|]; cbn [largest_spec] in MA; [|rewrite MA in A1; destruct A1].
  exists lo, hi. repeat (split; [reflexivity|]). destruct MI as [_ MI], MA as [_ MA]. pose proof (MI _ A1). pose proof (MA _ B1). lra.
Qed.
(** 0 % (or less) is the minimum, 100 % (or more) the maximum *)
Theorem C42_ends : forall q ex0 ip v m h, traced v m h -> m_stats m = false -> (ip = Nearest -> weighted m = false) ->
  (q <= 0 -> snd (percentile q ex0 ip v m) = Mok (snd (minimum ex0 v m))) /\ (100 <= q -> snd (percentile q ex0 ip v m) = Mok (snd (maximum ex0 v m))).
Proof.
  intros q ex0 ip v m h T S N. unfold percentile. rewrite S. assert (G : weighted m && match ip with Nearest => true | _ => false end = false) by (destruct ip; rewrite ?andb_false_r; auto; rewrite N; auto). rewrite G. clear G. split; intro L.
  - assert (E : Qeq_bool (if Qltb q 0 then 0 else if Qltb 100 q then 100 else q) 0 = true). { apply Qeq_bool_iff. destruct (Qltb q 0) eqn:A; [reflexivity|]. apply Qltb_false_iff in A. destruct (Qltb 100 q) eqn:B; [apply Qltb_iff in B; lra|lra]. } rewrite E. destruct (minimum ex0 v m). auto.
  - assert (E : Qeq_bool (if Qltb q 0 then 0 else if Qltb 100 q then 100 else q) 0 = false). { apply Qeqb_false. destruct (Qltb q 0) eqn:A; [apply Qltb_iff in A; lra|]. destruct (Qltb 100 q); lra. } rewrite E.
    assert (E2 : Qeq_bool (if Qltb q 0 then 0 else if Qltb 100 q then 100 else q) 100 = true). { apply Qeq_bool_iff. destruct (Qltb q 0) eqn:A; [apply Qltb_iff in A; lra|]. destruct (Qltb 100 q) eqn:B; [reflexivity|]. apply Qltb_false_iff in B. lra. } rewrite E2. destruct (maximum ex0 v m). auto.
Qed.
(** a higher percentage never gives a lower value *)
Theorem C42_monotone : forall q1 q2 ex0 ip v m h y1 y2, traced v m h -> m_stats m = false -> weights_fine m h -> q1 <= q2 ->
  snd (percentile q1 ex0 ip v m) = Mok (Some y1) -> snd (percentile q2 ex0 ip v m) = Mok (Some y2) -> y1 <= y2.
Proof.
  intros q1 q2 ex0 ip v m h y1 y2 T S F Q P1 P2. destruct (xweight ex0 true v m) as [m' r] eqn:E. destruct (stat_xw v m h ex0 m' r T S E) as [EV _].
  assert (N : ip = Nearest -> weighted m = false). { intros ->. destruct (weighted m) eqn:W; auto. unfold percentile in P1. rewrite S, W in P1. discriminate. }
  destruct (percentile_outcome q1 ex0 ip v m h m' r T S F N E) as (res1 & P1' & O1). rewrite P1 in P1'. injection P1' as <-. destruct (percentile_outcome q2 ex0 ip v m h m' r T S F N E) as (res2 & P2' & O2). rewrite P2 in P2'. injection P2' as <-.
  eapply outcome_monotone; eauto. eapply weights_fine_xw; eauto.
Qed.
(** there is a percentile as soon as there is some weight *)
Theorem C42_defined : forall q ex0 ip v m h, traced v m h -> m_stats m = false -> weights_fine m h -> (ip = Nearest -> weighted m = false) -> 0 < area (m_level m) ex0 (fun _ => 1) h (v_now v) ->
  exists y, snd (percentile q ex0 ip v m) = Mok (Some y).
Proof.
  intros q ex0 ip v m h T S F N A. destruct (xweight ex0 true v m) as [m' r] eqn:E. destruct (stat_xw v m h ex0 m' r T S E) as [EV TOT]. destruct (percentile_outcome q ex0 ip v m h m' r T S F N E) as (res & P & O). rewrite P. destruct res as [y|]; eauto. exfalso.
  rewrite <- (TOT (fun _ => 1)) in A. rewrite <- (sumQ_total r EV) in A.
  assert (NE : fst r <> []). { intro Z. red in EV. rewrite Z in EV. destruct (snd r); [cbn in A; lra|discriminate]. }
  inversion O as [Q M|Q M|a Q B M|Q B C M|k z Q B C D M1 M|k z Q B C M1 K M].
  - pose proof (min_of_spec (fst r)) as MS. rewrite M in MS. cbn in MS. destruct (fst r); [tauto|discriminate].
  - pose proof (max_of_spec (fst r)) as MS. rewrite M in MS. cbn in MS. destruct (fst r); [tauto|discriminate].
  - lra.
Qed.
(** level monitors and monitors with weights: for at most q % of the weight the value was below the percentile y, and for at least q % it was y or lower
    (for a level monitor: of the time) *)
Theorem C42_quantile : forall q ex0 ip v m h y, traced v m h -> m_stats m = false -> weights_fine m h -> weighted m = true -> 0 <= q <= 100 -> snd (percentile q ex0 ip v m) = Mok (Some y) ->
  area (m_level m) ex0 (below y) h (v_now v) <= q / 100 * area (m_level m) ex0 (fun _ => 1) h (v_now v) <= area (m_level m) ex0 (upto y) h (v_now v).
Proof.
  intros q ex0 ip v m h y T S F WM Q P. destruct (xweight ex0 true v m) as [m' r] eqn:E. destruct (stat_xw v m h ex0 m' r T S E) as [EV TOT].
  assert (N : ip = Nearest -> weighted m = false). { intros ->. destruct (weighted m) eqn:W; auto. unfold percentile in P. rewrite S, W in P. discriminate. }
  destruct (percentile_outcome q ex0 ip v m h m' r T S F N E) as (res & P' & O). rewrite P in P'. injection P' as <-. pose proof (weights_fine_xw v m h ex0 m' r T S F E) as NN. pose proof (srt_nonneg r EV NN) as SN.
  rewrite <- (TOT (below y)), <- (TOT (upto y)), <- (TOT (fun _ => 1)), <- (srt_total r (below y) EV), <- (srt_total r (upto y) EV), <- (srt_total r (fun _ => 1) EV).
  assert (ONE : forall x : QArith_base.Q, 0 <= (fun _ => 1) x <= 1) by (intro; cbv beta; lra). pose proof (total_pos (fun _ => 1) (srt r) ONE SN) as WP. pose proof (total_one (fun _ => 1) (srt r) ltac:(intros; reflexivity)) as W1. set (W := total_of (fun _ => 1) (srt r)) in *.
  assert (D : q / 100 * 100 == q) by field.
  assert (IN : forall p, In p (srt r) -> In (fst p) (map numq (fst r))). { intros p I. apply (Permutation_in _ (Permutation_sym (srt_perm r))) in I. apply (in_map fst) in I. rewrite combine_fst in I; auto. rewrite map_length. auto. }
  assert (ALL : (forall p, In p (srt r) -> y <= fst p) -> total_of (below y) (srt r) == 0). { intro A. apply total_zero. intros p I. unfold below. assert (B : Qltb (fst p) y = false) by (apply Qltb_false_iff; auto). rewrite B. reflexivity. }
  assert (NON : (forall p, In p (srt r) -> fst p <= y) -> total_of (upto y) (srt r) == W). { intro A. rewrite W1. apply total_one. intros p I. unfold upto. assert (B : Qle_bool (fst p) y = true) by (apply Qle_bool_iff; auto). rewrite B. reflexivity. }
  pose proof (total_pos (below y) (srt r) (below01 y) SN). pose proof (total_pos (upto y) (srt r) (upto01 y) SN). pose proof (total_le (below y) (srt r) (below01 y) SN) as BL.
  inversion O as [A M|A M|a A B M|A B C M|k z A B C D0 PW M|k z A B C PP K M].
  - pose proof (min_of_spec (fst r)) as MS. rewrite M in MS. cbn [least_spec] in MS. destruct MS as [_ MS]. assert (QZ : q / 100 == 0) by lra. rewrite QZ, ALL; [lra|]. intros p I. apply MS. auto.
  - pose proof (max_of_spec (fst r)) as MS. rewrite M in MS. cbn [largest_spec] in MS. destruct MS as [_ MS]. assert (QZ : q / 100 == 1) by lra. rewrite QZ, NON; [lra|]. intros p I. apply MS. auto.
  - rewrite B in IN. cbn [map In] in IN. subst y. rewrite NON, ALL; [split; nra| |]; intros p I; apply IN in I; destruct I as [I|[]]; rewrite I; lra.
  - subst z. pose proof (pw_quantile _ _ _ _ _ _ (psort_srt _) SN PW) as X0. rewrite <- (srt_sum r EV), <- W1 in X0. auto.
  - congruence.
Qed.
(** without weights, n values: at most q % of n-1, plus 1, are below y; more than q % of n-1 are y or lower *)
Theorem C42_rank : forall q ex0 ip v m h y, traced v m h -> m_stats m = false -> m_w m = WNo -> 0 < q < 100 -> (2 <= length (data ex0 h))%nat -> snd (percentile q ex0 ip v m) = Mok (Some y) ->
  nq (length (filter (fun p => Qltb (fst p) y) (data ex0 h))) <= q / 100 * (nq (length (data ex0 h)) - 1) + 1 /\ q / 100 * (nq (length (data ex0 h)) - 1) < nq (length (filter (fun p => Qle_bool (fst p) y) (data ex0 h))).
Proof.
  intros q ex0 ip v m h y T S WN QR LD P. assert (L : m_level m = false). { destruct (m_level m) eqn:L; auto. pose proof (lv_w _ _ _ (mi_lev _ _ _ (traced_inv _ _ _ T) S L)). congruence. }
  assert (W1 : forall x w, In (x, w) (recorded h) -> w == 1). { intros x w I. pose proof (pl_w _ _ (mi_pla _ _ _ (traced_inv _ _ _ T) S L)) as WO. rewrite WN in WO. cbn in WO. rewrite Forall_forall in WO. unfold recorded in I. apply in_map_iff in I. destruct I as ([[t z] u] & E & I). injection E as <- <-. apply in_rev in I. apply (WO _ I). }
  assert (F : weights_fine m h) by (intros _ x w I; rewrite (W1 x w I); lra).
  destruct (xweight ex0 true v m) as [m' r] eqn:E. destruct (stat_xw v m h ex0 m' r T S E) as [EV TOT]. rewrite L in TOT.
  assert (WT : weighted m = false) by (unfold weighted; rewrite WN; auto).
  destruct (percentile_outcome q ex0 ip v m h m' r T S F (fun _ => WT) E) as (res & P' & O). rewrite P in P'. injection P' as <-. pose proof (weights_fine_xw v m h ex0 m' r T S F E) as NN. pose proof (srt_nonneg r EV NN) as SN.
  assert (D1 : forall x w, In (x, w) (data ex0 h) -> w == 1). { intros x w I. unfold data in I. apply in_map_iff in I. destruct I as ([z u] & E2 & I). injection E2 as <- <-. apply filter_In in I. apply (W1 z u). tauto. }
  assert (CNT : forall f l, (forall x w, In (x, w) l -> w == 1) -> total_of (fun x => if (f x : bool) then 1 else 0) l == nq (length (filter (fun p : Q * Q => f (fst p)) l))).
  { intros f l. induction l as [|[x w] l IH]; intro A; cbn [total_of filter fst]; [reflexivity|]. rewrite IH by (intros; eapply A; right; eauto). pose proof (A x w (or_introl eq_refl)) as W0. destruct (f x); cbn [length]; rewrite ?nq_S, W0; ring. }
  pose proof (CNT (fun x => Qltb x y) _ D1) as CB. pose proof (CNT (fun x => Qle_bool x y) _ D1) as CU. fold (below y) in CB. fold (upto y) in CU. rewrite <- CB, <- CU. rewrite (data_total ex0 (below y) h (v_now v)), (data_total ex0 (upto y) h (v_now v)). rewrite <- (TOT (below y)), <- (TOT (upto y)), <- (srt_total r (below y) EV), <- (srt_total r (upto y) EV).
  destruct (stat_xw_plain v m h ex0 m' r T S L E) as [X1 X2]. assert (LR : length (fst r) = length (data ex0 h)) by (rewrite X1; unfold both; cbn [fst]; rewrite !map_length; auto).
  assert (R1 : forall w, In w (snd r) -> w == 1). { assert (FF : Forall2 Qeq (snd r) (map snd (data ex0 h))) by (unfold both in X2; cbn [snd] in X2; rewrite map_map in X2; exact X2). assert (D2 : Forall (fun w => w == 1) (map snd (data ex0 h))) by (apply Forall_forall; intros w I; apply in_map_iff in I; destruct I as ([x u] & <- & I); apply (D1 x u I)). clear - FF D2. induction FF; intros w I; [destruct I|]. inversion D2; subst. destruct I as [<-|I]; [rewrite H; auto|auto]. }
  assert (S1 : Forall (fun p => snd p == 1) (srt r)). { apply (Permutation_Forall (srt_perm r)). apply Forall_forall. intros p I. apply R1. apply (in_map snd) in I. rewrite combine_snd in I; auto. rewrite map_length. auto. }
  assert (PK : forall s k, Forall (fun p => snd p == 1) s -> (k <= length s)%nat -> part s k == nq k). { clear. intros s k A. revert k. induction A as [|[x w] l A1 A IH]; intros [|k] K; cbn [length] in K; try lia; try reflexivity. unfold part in *. cbn [firstn map snd sumQ]. rewrite IH by lia. cbn [snd] in A1. rewrite A1, nq_S. ring. }
  inversion O as [A M|A M|a A B M|A B C M|k z A B C D0 PW M|k z A B C PP K M]; try lra; try congruence; [rewrite B in LR; cbn in LR; lia|]. subst z.
  destruct (pick_between (q / 100) ip (srt r) k (psort_srt _) PP) as (y' & Y1 & Y2). assert (y' = y) by congruence. subst y'. destruct PP as [KK LO HI]. rewrite srt_length, LR in LO, HI by auto. unfold spot in LO, HI.
  assert (P1 : inject_Z (Z.of_nat (length (data ex0 h)) - 1) == nq (length (data ex0 h)) - 1) by (unfold Z.sub; rewrite inject_Z_plus; change (inject_Z (- (1))) with (- (1)); unfold nq; ring). assert (P2 : 0 < nq (length (data ex0 h)) - 1) by (rewrite <- P1; change 0 with (inject_Z 0); rewrite <- Zlt_Qlt; lia). rewrite P1 in LO, HI. set (n1 := nq (length (data ex0 h)) - 1) in *. fold (nq k) in LO. fold (nq (Datatypes.S k)) in HI.
  assert (LO' : nq k <= q / 100 * n1). { assert (EE : nq k == nq k / n1 * n1) by (field; lra). rewrite EE. apply Qmult_le_compat_r; lra. }
  assert (HI' : q / 100 * n1 < nq (Datatypes.S k)). { assert (EE : nq (Datatypes.S k) == nq (Datatypes.S k) / n1 * n1) by (field; lra). rewrite EE. apply Qmult_lt_compat_r; lra. }
  pose proof (below_part (srt r) (Datatypes.S k) y (psort_srt _) SN ltac:(intros; lra)) as BP. pose proof (upto_part (srt r) k y (psort_srt _) SN ltac:(lia) ltac:(lra)) as UP. rewrite PK in BP, UP by (auto; lia). rewrite nq_S in *. split; lra.
Qed.
(** without interpolation the percentile is one of the tallied values *)
Definition no_interpolation (ip : ipol) : Prop := ip = Lower \/ ip = Higher \/ ip = Nearest.
Lemma outcome_member : forall q ip wt r y, no_interpolation ip -> even r -> outcome q ip wt r (Some y) -> exists x, In x (map numq (fst r)) /\ x == y.
Proof.
  intros q ip wt r y NI EV O. inversion O as [A E|A E|a A B E|A B C E|k z A B C D P E|k z A B C P K E].
  - pose proof (min_of_spec (fst r)) as M. rewrite E in M. apply M.
  - pose proof (max_of_spec (fst r)) as M. rewrite E in M. apply M.
  - rewrite B. exists (numq a). split; cbn; auto. reflexivity.
  - subst z. destruct P as [KK LO HI [[_ ->]|(_ & SK & ->)]].
    + exists (X (srt r) k). split; [apply srt_in; auto|reflexivity].
    + destruct NI as [-> |[-> | ->]]; cbn [choice]; match goal with |- exists x, _ /\ x == ?z => exists z end; (split; [apply srt_in; auto; lia|reflexivity]).
  - subst z. pose proof (pp_k _ _ _ P) as PK. destruct NI as [-> |[-> | ->]]; cbn [pick] in K; injection K as <-.
    + match goal with |- exists x, _ /\ x == ?z => exists z end; (split; [apply srt_in; auto; lia|reflexivity]).
    + match goal with |- exists x, _ /\ x == ?z => exists z end; (split; [apply srt_in; auto; lia|reflexivity]).
    + destruct (Qle_bool _ _); match goal with |- exists x, _ /\ x == ?z => exists z end; (split; [apply srt_in; auto; lia|reflexivity]).
Qed.
Theorem C42_member : forall q ex0 ip v m h y, traced v m h -> m_stats m = false -> m_level m = false -> weights_fine m h -> no_interpolation ip -> snd (percentile q ex0 ip v m) = Mok (Some y) ->
  exists x w, In (x, w) (data ex0 h) /\ x == y.
Proof.
  intros q ex0 ip v m h y T S L F NI P. destruct (xweight ex0 true v m) as [m' r] eqn:E. destruct (stat_xw v m h ex0 m' r T S E) as [EV _].
  assert (N : ip = Nearest -> weighted m = false). { intros ->. destruct (weighted m) eqn:W; auto. unfold percentile in P. rewrite S, W in P. discriminate. }
  destruct (percentile_outcome q ex0 ip v m h m' r T S F N E) as (res & P' & O). rewrite P in P'. injection P' as <-. destruct (outcome_member _ _ _ _ _ NI EV O) as (x & A & B).
  destruct (stat_xw_plain v m h ex0 m' r T S L E) as [X1 _]. rewrite X1 in A. unfold both in A. cbn [fst] in A. rewrite !map_map in A. apply in_map_iff in A. destruct A as ([x0 w] & A1 & A2). cbn [numq fst] in A1. subst x0. exists x, w. auto.
Qed.
Theorem C42_member_level : forall q ip v m h y, traced v m h -> m_stats m = false -> m_level m = true -> on_of h = true -> no_interpolation ip -> snd (percentile q false ip v m) = Mok (Some y) ->
  exists t x, t <= v_now v /\ level_at h t = Some x /\ number x == y.
Proof.
  intros q ip v m h y T S L ON NI P. destruct (xweight false true v m) as [m' r] eqn:E. destruct (stat_xw v m h false m' r T S E) as [EV _].
  assert (N : ip = Nearest -> weighted m = false). { intros ->. destruct (weighted m) eqn:W; auto. unfold percentile in P. rewrite S, W in P. discriminate. }
  assert (F : weights_fine m h) by (intro; congruence).
  destruct (percentile_outcome q false ip v m h m' r T S F N E) as (res & P' & O). rewrite P in P'. injection P' as <-. destruct (outcome_member _ _ _ _ _ NI EV O) as (x & A & B).
  apply (level_numbers v m h x m' r T S L ON E) in A. destruct A as (t & z & A1 & A2 & A3). exists t, z. split; auto. split; auto. rewrite A3. auto.
Qed.

(** *** cases meeting the hypotheses *)
Definition pcs q ips s := map (fun ip => match snd (percentile q false ip (sv s) (sm s)) with Mok (Some y) => Some (Qred y) | _ => None end) ips.
Example C42_case_plain : let s := story false TAny false true (Num 0) [OTally (Num 4) 1; OTick 1; OTally (Num 1) 1; OTally (Num 3) 1; OTally (Num 9) 1] in
  traced (sv s) (sm s) (sh s) /\ m_stats (sm s) = false /\ m_w (sm s) = WNo /\ List.length (data false (sh s)) = 4%nat /\ pcs 50 [Linear; Lower; Higher; Midpoint; Nearest] s = [Some (7 # 2); Some 3; Some 4; Some (7 # 2); Some 3] /\ pcs 0 [Linear] s = [Some 1] /\ pcs 100 [Linear] s = [Some 9].
Proof. cbv zeta. split; [apply story_after; vm_compute; reflexivity|]. vm_compute. repeat (split; [reflexivity|]). reflexivity. Qed.
Definition story42 := story true TAny false true (Num 3) [OTick 2; OTally (Num 5) 1; OTick 2; OMonitor false; OTick 1; OTally (Num 7) 1; OTick 1; OMonitor true; OTick 4].
Example C42_case_level : traced (sv story42) (sm story42) (sh story42) /\ m_stats (sm story42) = false /\ m_level (sm story42) = true /\ weighted (sm story42) = true /\ on_of (sh story42) = true /\
  area true false (fun _ => 1) (sh story42) (v_now (sv story42)) == 8 /\ pcs 50 [Linear; Lower; Higher; Midpoint; Nearest] story42 = [Some 6; Some 5; Some 7; Some 6; None] /\ pcs 30 [Lower] story42 = [Some 5].
Proof. split; [apply story_after; vm_compute; reflexivity|]. vm_compute. repeat (split; [reflexivity|]). reflexivity. Qed.
Example C42_case_weights : let s := story false TAny false true (Num 0) [OTally (Num 4) 3; OTally (Num 1) 1] in traced (sv s) (sm s) (sh s) /\ weights_fine (sm s) (sh s) /\ weighted (sm s) = true /\ pcs 25 [Linear; Lower; Higher] s = [Some (5 # 2); Some 1; Some 4].
Proof.
  cbv zeta. split; [apply story_after; vm_compute; reflexivity|]. split; [|vm_compute; repeat (split; [reflexivity|]); reflexivity].
  intros _ x w I. set (l := recorded _) in I. vm_compute in l. subst l. destruct I as [I|[I|[]]]; injection I as <- <-; unfold Qle; cbn; lia.
Qed.

Print Assumptions C42_between.
Print Assumptions C42_ends.
Print Assumptions C42_monotone.
Print Assumptions C42_defined.
Print Assumptions C42_quantile.
Print Assumptions C42_rank.
Print Assumptions C42_member.
Print Assumptions C42_member_level.
