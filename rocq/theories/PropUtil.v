(** C53–C56: names, interpolation, ranges, time units *)
From Coq Require Import QArith Qround Lqa List Bool Arith ZArith Lia String Ascii Decimal DecimalString DecimalNat.
From Verif Require Import Base Util.
Import ListNotations.
Open Scope Q_scope.

(** ** C56: time units *)
(** the number of seconds in a unit (the spec) *)
Definition in_seconds (u : tunit) : Q :=
  match u with Years => 31536000 | Weeks => 604800 | Days => 86400 | Hours => 3600 | Minutes => 60 | Seconds => 1 | Milliseconds => 1 # 1000 | Microseconds => 1 # 1000000 end.
Definition is_ok (r : ures Q) (q : Q) : Prop := exists z, r = UOk z /\ z == q.
Lemma lookup_seconds : forall u, exists v, tu_lookup (Some u) = Some v /\ v == / in_seconds u.
Proof. destruct u; eexists; split; try reflexivity. Qed.
Lemma in_seconds_pos : forall u, 0 < in_seconds u.
Proof. destruct u; reflexivity. Qed.
(** a time t in unit u, in the unit of the environment *)
Theorem C56_from : forall e u t, is_ok (from_unit (tu_lookup (Some e)) u t) (t * in_seconds u / in_seconds e).
Proof. intros e u t. unfold is_ok, from_unit. destruct e, u; cbn; eexists; (split; [reflexivity|]); unfold Qdiv; cbn; field. Qed.
(** a time t in the unit of the environment, in unit u *)
Theorem C56_to : forall e u t, is_ok (to_unit (tu_lookup (Some e)) (Some u) t) (t * in_seconds e / in_seconds u).
Proof. intros e u t. unfold is_ok, to_unit. destruct e, u; cbn; eexists; (split; [reflexivity|]); field. Qed.
(** there and back, for any pair of units *)
Theorem C56_there_and_back : forall e u t, exists a b, to_unit (tu_lookup (Some e)) (Some u) t = UOk a /\ from_unit (tu_lookup (Some e)) u a = UOk b /\ b == t.
Proof.
  intros e u t. destruct (C56_to e u t) as (a & A & EA). destruct (C56_from e u a) as (b & B & EB). exists a, b. split; auto. split; auto. rewrite EB, EA.
  pose proof (in_seconds_pos u). pose proof (in_seconds_pos e). field. split; intro X; rewrite X in *; discriminate.
Qed.
(** from one environment to another via any unit is the same as directly *)
Theorem C56_compose : forall e1 e2 u t, exists a b, to_unit (tu_lookup (Some e1)) (Some u) t = UOk a /\ from_unit (tu_lookup (Some e2)) u a = UOk b /\ is_ok (to_unit (tu_lookup (Some e1)) (Some e2) t) b.
Proof.
  intros e1 e2 u t. destruct (C56_to e1 u t) as (a & A & EA). destruct (C56_from e2 u a) as (b & B & EB). exists a, b. split; auto. split; auto.
  destruct (C56_to e1 e2 t) as (c & C & EC). exists c. split; auto. rewrite EC, EB, EA.
  pose proof (in_seconds_pos u). pose proof (in_seconds_pos e1). pose proof (in_seconds_pos e2). field. split; intro X; rewrite X in *; discriminate.
Qed.
Theorem C56_additive : forall e u s t, exists a b c, to_unit (tu_lookup (Some e)) (Some u) s = UOk a /\ to_unit (tu_lookup (Some e)) (Some u) t = UOk b /\ to_unit (tu_lookup (Some e)) (Some u) (s + t) = UOk c /\ c == a + b.
Proof.
  intros e u s t. destruct (C56_to e u s) as (a & A & EA). destruct (C56_to e u t) as (b & B & EB). destruct (C56_to e u (s + t)) as (c & C & EC). exists a, b, c. repeat (split; auto). rewrite EA, EB, EC.
  pose proof (in_seconds_pos u). field. intro X; rewrite X in *; discriminate.
Qed.
(** the factor of time_unit arguments of distributions etc. is that of [from] *)
Theorem C56_factor : forall e u t, exists f r, tu_factor (tu_lookup (Some e)) (Some (Some u)) = UOk f /\ from_unit (tu_lookup (Some e)) u t = UOk r /\ r == t * f.
Proof. intros e u t. destruct e, u; cbn; eexists; eexists; (split; [reflexivity|split; [reflexivity|]]); unfold Qdiv; cbn; field. Qed.
(** without a time unit nothing is converted: an exception *)
Theorem C56_na : forall u n t, to_unit (tu_lookup None) n t = UEr UAttr /\ from_unit (tu_lookup None) u t = UEr UAttr /\ tu_factor (tu_lookup None) (Some n) = UEr UAttr.
Proof. intros. repeat split. Qed.
Example C56_case : is_ok (from_unit (tu_lookup (Some Minutes)) Days (3 # 2)) 2160 /\ is_ok (to_unit (tu_lookup (Some Minutes)) (Some Weeks) 20160) 2.
Proof. split; eexists; split; reflexivity. Qed.

(** ** C54: interpolation *)
Definition oeq (a b : option Q) : Prop := match a, b with Some x, Some y => x == y | None, None => True | _, _ => False end.
Lemma oeqb_iff : forall a b, oeqb a b = true <-> oeq a b.
Proof. intros [x|] [y|]; cbn; try (split; [discriminate|tauto]); [apply Qeq_bool_iff|tauto]. Qed.
Lemma oeqb_false : forall a b, oeqb a b = false <-> ~ oeq a b.
Proof. intros a b. rewrite <- oeqb_iff. destruct (oeqb a b); split; congruence. Qed.
Lemma Qeq_bool_false : forall a b, Qeq_bool a b = false <-> ~ a == b.
Proof. intros a b. rewrite <- Qeq_bool_iff. destruct (Qeq_bool a b); split; congruence. Qed.
Lemma xltb_fin : forall a b, xltb (Fin a) (Fin b) = Qltb a b.
Proof. reflexivity. Qed.
(** the straight line between (a,x) and (b,y) *)
Definition line (a b x y t : Q) : Q := x + (y - x) * (t - a) / (b - a).
Inductive interp_spec (a b x y t : Q) : Q -> Prop :=
| is_before : forall z, t <= a -> z == x -> interp_spec a b x y t z
| is_after : forall z, b <= t -> z == y -> interp_spec a b x y t z
| is_between : forall z, a < t -> t < b -> z == line a b x y t -> interp_spec a b x y t z.
Lemma interp1 : forall a b x y t, a < b -> exists z, interpolate1 t (Fin a) (Fin b) (Some x) (Some y) = Some z /\ interp_spec a b x y t z.
Proof.
  intros a b x y t AB. unfold interpolate1, interpolate. cbn [oeqb]. destruct (Qeq_bool x y) eqn:EXY.
  - apply Qeq_bool_iff in EXY. exists x. split; auto. destruct (Qlt_le_dec a t) as [A|A]; [|apply is_before; auto; reflexivity]. destruct (Qlt_le_dec t b) as [B|B]; [|apply is_after; auto].
    apply is_between; auto. unfold line. rewrite EXY. field. lra.
  - rewrite xltb_fin. assert (X : Qltb b a = false) by (apply Qltb_false_iff; lra). rewrite X. assert (N : Qeq_bool a b = false) by (apply Qeq_bool_false; lra). rewrite N.
    destruct (Qle_bool t a) eqn:TA; [apply Qle_bool_iff in TA; exists x; split; auto; apply is_before; auto; reflexivity|]. apply Qle_bool_false_iff in TA.
    destruct (Qle_bool b t) eqn:TB; [apply Qle_bool_iff in TB; exists y; split; auto; apply is_after; auto; reflexivity|]. apply Qle_bool_false_iff in TB.
    unfold mix. cbn [oeqb]. rewrite EXY. eexists. split; [reflexivity|]. apply is_between; auto. unfold line. field. lra.
Qed.
(** a fraction between 0 and 1 *)
Lemma frac : forall a b t, a < t -> t < b -> exists p, 0 < p /\ p < 1 /\ p * (b - a) == t - a /\ forall x y, line a b x y t == x + (y - x) * p.
Proof.
  intros a b t A B. exists ((t - a) / (b - a)). assert (D : 0 < b - a) by lra. assert (E : (t - a) / (b - a) * (b - a) == t - a) by (field; lra).
  assert (P : 0 < (t - a) / (b - a)) by (apply Qlt_shift_div_l; auto; lra). assert (P1 : (t - a) / (b - a) < 1) by (apply Qlt_shift_div_r; auto; lra).
  repeat split; auto. intros x y. unfold line. field. lra.
Qed.
Lemma line_bounds : forall a b x y t, a < t -> t < b -> x <= y -> x <= line a b x y t <= y.
Proof.
  intros a b x y t A B XY. destruct (frac a b t A B) as (p & P0 & P1 & _ & L). rewrite L. assert (0 <= (y - x) * p) by (apply Qmult_le_0_compat; lra). assert (0 <= (y - x) * (1 - p)) by (apply Qmult_le_0_compat; lra). lra.
Qed.
Lemma line_mono : forall a b x y s t, a < b -> s <= t -> x <= y -> line a b x y s <= line a b x y t.
Proof.
  intros a b x y s t AB ST XY. unfold line. assert (0 <= (y - x) * (t - s) / (b - a)) by (apply Qle_shift_div_l; [lra|]; assert (0 <= (y - x) * (t - s)) by (apply Qmult_le_0_compat; lra); lra).
  assert (E : (y - x) * (t - a) / (b - a) == (y - x) * (s - a) / (b - a) + (y - x) * (t - s) / (b - a)) by (field; lra). rewrite E. lra.
Qed.
Lemma line_swap : forall a b x y t, ~ a == b -> line a b x y t == line b a y x t.
Proof. intros. unfold line. field. split; lra. Qed.
Lemma line_neg : forall a b x y t, line a b (- x) (- y) t == - line a b x y t.
Proof.
  intros. unfold line. destruct (Qeq_dec (b - a) 0) as [E|N]; [|field; auto]. unfold Qdiv. rewrite E. cbn. unfold Qinv. cbn. lra.
Qed.
(** the end points *)
Theorem C54_ends : forall a b x y t, a < b -> (t <= a -> oeq (interpolate1 t (Fin a) (Fin b) (Some x) (Some y)) (Some x)) /\ (b <= t -> oeq (interpolate1 t (Fin a) (Fin b) (Some x) (Some y)) (Some y)).
Proof.
  intros a b x y t AB. destruct (interp1 a b x y t AB) as (z & -> & I). cbn. destruct I as [z H H1|z H H1|z H H0 H1]; split; intro; auto; try lra.
Qed.
(** on the line in between *)
Theorem C54_linear : forall a b x y t, a < b -> a <= t <= b -> oeq (interpolate1 t (Fin a) (Fin b) (Some x) (Some y)) (Some (line a b x y t)).
Proof.
  intros a b x y t AB T. destruct (interp1 a b x y t AB) as (z & -> & I). cbn. destruct I as [z H H1|z H H1|z H H0 H1]; auto; rewrite H1.
  - assert (E : t == a) by lra. unfold line. rewrite E. field. lra.
  - assert (E : t == b) by lra. unfold line. rewrite E. field. lra.
Qed.
(** between the end values *)
Theorem C54_between : forall a b x y t, a < b -> exists z, interpolate1 t (Fin a) (Fin b) (Some x) (Some y) = Some z /\ (x <= y -> x <= z <= y) /\ (y <= x -> y <= z <= x).
Proof.
  intros a b x y t AB. destruct (interp1 a b x y t AB) as (z & E & I). exists z. split; auto. destruct I as [z H H1|z H H1|z H H0 H1]; rewrite H1; split; intro XY; try lra.
  - apply line_bounds; auto.
  - pose proof (line_bounds a b (- x) (- y) t H H0 ltac:(lra)) as X. rewrite line_neg in X. lra.
Qed.
(** monotone in t *)
Theorem C54_monotone : forall a b x y s t, a < b -> s <= t -> exists u v, interpolate1 s (Fin a) (Fin b) (Some x) (Some y) = Some u /\ interpolate1 t (Fin a) (Fin b) (Some x) (Some y) = Some v /\ (x <= y -> u <= v) /\ (y <= x -> v <= u).
Proof.
  intros a b x y s t AB ST. destruct (interp1 a b x y s AB) as (u & E & I). destruct (interp1 a b x y t AB) as (v & F & J). exists u, v. split; auto. split; auto.
  assert (G : forall x y u v, x <= y -> interp_spec a b x y s u -> interp_spec a b x y t v -> u <= v).
  { clear - AB ST. intros x y u v XY [z H H1|z H H1|z H H0 H1] [w K K1|w K K1|w K K0 K1]; rewrite H1, K1; try lra.
    - apply line_bounds; auto. - apply line_bounds; auto. - apply line_mono; auto. }
  split; intro XY; [eapply G; eauto|].
  assert (N : forall t u, interp_spec a b x y t u -> interp_spec a b (- x) (- y) t (- u)).
  { clear. intros t u [z H H1|z H H1|z H H0 H1]; [apply is_before|apply is_after|apply is_between]; auto; rewrite H1; try reflexivity. symmetry. apply line_neg. }
  pose proof (G (- x) (- y) (- u) (- v) ltac:(lra) (N _ _ I) (N _ _ J)). lra.
Qed.
(** the order of the end points does not matter *)
Theorem C54_swap : forall a b x y t, ~ a == b -> oeq (interpolate1 t (Fin a) (Fin b) (Some x) (Some y)) (interpolate1 t (Fin b) (Fin a) (Some y) (Some x)).
Proof.
  intros a b x y t AB. unfold interpolate1, interpolate. cbn [oeqb]. destruct (Qeq_bool x y) eqn:EXY.
  - apply Qeq_bool_iff in EXY. assert (Y : Qeq_bool y x = true) by (apply Qeq_bool_iff; lra). rewrite Y. cbn. auto.
  - assert (Y : Qeq_bool y x = false) by (apply Qeq_bool_false; apply Qeq_bool_false in EXY; lra). rewrite Y, !xltb_fin.
    destruct (Qltb b a) eqn:BA.
    + apply Qltb_iff in BA. assert (Z : Qltb a b = false) by (apply Qltb_false_iff; lra). rewrite Z. apply oeqb_iff. match goal with |- oeqb ?u ?u = true => destruct u; [apply Qeq_bool_refl|reflexivity] end.
    + apply Qltb_false_iff in BA. assert (Z : Qltb a b = true) by (apply Qltb_iff; lra). rewrite Z. apply oeqb_iff. match goal with |- oeqb ?u ?u = true => destruct u; [apply Qeq_bool_refl|reflexivity] end.
Qed.
(** an endless interval stays at its first value *)
Theorem C54_endless : forall a x y t, interpolate1 t (Fin a) PInf (Some x) (Some y) = Some x.
Proof. intros. unfold interpolate1, interpolate. cbn. destruct (Qeq_bool x y); auto. Qed.
(** the one exception: an empty interval always yields the second value, also before it *)
Theorem C54_empty_interval_refuted : exists a x y t, t < a /\ ~ oeq (interpolate1 t (Fin a) (Fin a) (Some x) (Some y)) (Some x).
Proof. exists 1, 5, 7, 0. split; [reflexivity|]. cbn. discriminate. Qed.
(** tuples: element by element *)
Inductive each (R : option Q -> option Q -> option Q -> Prop) : list (option Q) -> list (option Q) -> list (option Q) -> Prop :=
| each_nil : each R [] [] []
| each_cons : forall x y z a b c, R x y z -> each R a b c -> each R (x :: a) (y :: b) (z :: c).
Theorem C54_tuple : forall t t0 t1 v0 v1, List.length v0 = List.length v1 -> each (fun x y z => oeq z (interpolate1 t t0 t1 x y)) v0 v1 (interpolate_tuple t t0 t1 v0 v1).
Proof.
  assert (refl : forall x, oeq x x) by (intros [x|]; cbn; auto; reflexivity).
  assert (sym : forall x y, oeq x y -> oeq y x) by (intros [x|] [y|]; cbn; auto; intro; symmetry; auto).
  assert (FST : forall (R : option Q -> option Q -> option Q -> Prop) v0 v1, List.length v0 = List.length v1 -> (forall x y, R x y x) -> each R v0 v1 v0).
  { induction v0 as [|x a IH]; intros [|y b] L A; try discriminate; constructor; auto. }
  assert (SND : forall (R : option Q -> option Q -> option Q -> Prop) v0 v1, List.length v0 = List.length v1 -> (forall x y, R x y y) -> each R v0 v1 v1).
  { induction v0 as [|x a IH]; intros [|y b] L A; try discriminate; constructor; auto. }
  assert (EQ : forall (R : option Q -> option Q -> option Q -> Prop) v0 v1, tupeqb v0 v1 = true -> (forall x y, oeq x y -> R x y x) -> each R v0 v1 v0).
  { induction v0 as [|x a IH]; intros [|y b] L A; try discriminate; constructor; cbn in L; apply andb_true_iff in L; destruct L as [L1 L2]; auto. apply A. apply oeqb_iff. auto. }
  assert (MIX : forall (R : option Q -> option Q -> option Q -> Prop) p v0 v1, List.length v0 = List.length v1 -> (forall x y, R x y (mix p x y)) -> each R v0 v1 (mixs p v0 v1)).
  { induction v0 as [|x a IH]; intros [|y b] L A; try discriminate; constructor; auto. }
  assert (MIXS : forall (R : option Q -> option Q -> option Q -> Prop) p v0 v1, List.length v0 = List.length v1 -> (forall x y, R x y (mix p y x)) -> each R v0 v1 (mixs p v1 v0)).
  { induction v0 as [|x a IH]; intros [|y b] L A; try discriminate; constructor; auto. }
  assert (osym : forall x y, oeqb x y = oeqb y x) by (intros x y; destruct (oeqb x y) eqn:A; [apply oeqb_iff in A; symmetry; apply oeqb_iff; auto|]; destruct (oeqb y x) eqn:B; auto; apply oeqb_iff in B; apply sym in B; apply oeqb_iff in B; congruence).
  intros t t0 t1 v0 v1 L. unfold interpolate_tuple, interpolate1, interpolate.
  destruct (tupeqb v0 v1) eqn:TE; [apply EQ; auto; intros x y E; apply oeqb_iff in E; rewrite E; auto|].
  destruct (xltb t1 t0).
  - destruct t1 as [b|], t0 as [a|]; try (apply SND; auto; intros x y; destruct (oeqb x y) eqn:E; auto; apply sym; apply oeqb_iff; auto).
    destruct (Qeq_bool b a); [apply FST; auto; intros x y; destruct (oeqb x y) eqn:E; auto|].
    destruct (Qle_bool t b); [apply SND; auto; intros x y; destruct (oeqb x y) eqn:E; auto; apply sym; apply oeqb_iff; auto|].
    destruct (Qle_bool a t); [apply FST; auto; intros x y; destruct (oeqb x y) eqn:E; auto|].
    apply MIXS; auto. intros x y. destruct (oeqb x y) eqn:E; auto. unfold mix. rewrite osym, E. apply sym. apply oeqb_iff. auto.
  - destruct t0 as [a|], t1 as [b|]; try (apply FST; auto; intros x y; destruct (oeqb x y) eqn:E; auto).
    destruct (Qeq_bool a b); [apply SND; auto; intros x y; destruct (oeqb x y) eqn:E; auto; apply sym; apply oeqb_iff; auto|].
    destruct (Qle_bool t a); [apply FST; auto; intros x y; destruct (oeqb x y) eqn:E; auto|].
    destruct (Qle_bool b t); [apply SND; auto; intros x y; destruct (oeqb x y) eqn:E; auto; apply sym; apply oeqb_iff; auto|].
    apply MIX; auto. intros x y. destruct (oeqb x y) eqn:E; auto. unfold mix. rewrite E. auto.
Qed.
(** bisection on a sorted list *)
Definition sorted (a : list Q) : Prop := forall i j, (i <= j)%nat -> (j < List.length a)%nat -> nth i a 0 <= nth j a 0.
Lemma bisect_ok : forall g a, (forall i j, (i <= j)%nat -> (j < List.length a)%nat -> g (nth j a 0) = true -> g (nth i a 0) = true) ->
  forall fuel lo hi, (hi - lo < fuel)%nat -> (lo <= hi)%nat -> (hi <= List.length a)%nat -> (forall i, (i < lo)%nat -> g (nth i a 0) = true) -> (forall i, (hi <= i)%nat -> (i < List.length a)%nat -> g (nth i a 0) = false) ->
  exists n, bisect g fuel lo hi a = UOk n /\ (n <= List.length a)%nat /\ (forall i, (i < n)%nat -> g (nth i a 0) = true) /\ (forall i, (n <= i)%nat -> (i < List.length a)%nat -> g (nth i a 0) = false).
Proof.
  intros g a M. induction fuel as [|k IH]; intros lo hi F LH HL B A; [lia|]. cbn [bisect]. destruct (Nat.ltb_spec lo hi) as [L|L].
  - set (mid := Nat.div2 (lo + hi)). assert (MB : (lo <= mid < hi)%nat) by (unfold mid; rewrite Nat.div2_div; split; [apply Nat.div_le_lower_bound; lia|apply Nat.div_lt_upper_bound; lia]).
    rewrite (nth_error_nth' a 0) by lia. destruct (g (nth mid a 0)) eqn:G.
    + apply IH; auto; try lia. intros i I. apply (M i mid); auto; lia.
    + apply IH; auto; try lia. intros i I1 I2. destruct (g (nth i a 0)) eqn:G2; auto. rewrite (M mid i) in G; auto; discriminate.
  - exists lo. split; auto. split; [lia|]. split; auto. intros i I. apply A. lia.
Qed.
Theorem C54_searchsorted : forall a v, sorted a ->
  (exists n, searchsorted a v SLeft = UOk n /\ (n <= List.length a)%nat /\ (forall i, (i < n)%nat -> nth i a 0 < v) /\ (forall i, (n <= i)%nat -> (i < List.length a)%nat -> v <= nth i a 0)) /\
  (exists n, searchsorted a v SRight = UOk n /\ (n <= List.length a)%nat /\ (forall i, (i < n)%nat -> nth i a 0 <= v) /\ (forall i, (n <= i)%nat -> (i < List.length a)%nat -> v < nth i a 0)).
Proof.
  intros a v S. split.
  - destruct (bisect_ok (fun y => Qltb y v) a) with (fuel := Datatypes.S (List.length a)) (lo := 0%nat) (hi := List.length a) as (n & E & L & A & B); try lia.
    + intros i j I J G. apply Qltb_iff in G. apply Qltb_iff. pose proof (S i j I J). lra.
    + exists n. split; auto. split; auto. split; [intros i I; apply Qltb_iff; auto|intros i I J; apply Qltb_false_iff; auto].
  - destruct (bisect_ok (fun y => negb (Qltb v y)) a) with (fuel := Datatypes.S (List.length a)) (lo := 0%nat) (hi := List.length a) as (n & E & L & A & B); try lia.
    + intros i j I J G. apply negb_true_iff in G. apply Qltb_false_iff in G. apply negb_true_iff. apply Qltb_false_iff. pose proof (S i j I J). lra.
    + exists n. split; auto. split; auto. split; [intros i I; apply Qltb_false_iff; apply negb_true_iff; auto|intros i I J; apply Qltb_iff; apply negb_false_iff; auto].
Qed.
Lemma last_nth : forall (a : list Q) d, a <> [] -> last a d = nth (List.length a - 1) a d.
Proof. induction a as [|x a IH]; intros d N; [congruence|]. destruct a as [|y a]; auto. change (last (x :: y :: a) d) with (last (y :: a) d). rewrite IH by discriminate. cbn. rewrite Nat.sub_0_r. auto. Qed.
(** interp agrees with interpolate on every segment, for strictly increasing xp *)
Theorem C54_interp : forall x xp fp l r i, (forall i j, (i < j)%nat -> (j < List.length xp)%nat -> nth i xp 0 < nth j xp 0) -> List.length fp = List.length xp -> (S i < List.length xp)%nat ->
  nth i xp 0 <= x <= nth (S i) xp 0 ->
  exists z, interp x xp fp l r = UOk z /\ oeq (Some z) (interpolate1 x (Fin (nth i xp 0)) (Fin (nth (S i) xp 0)) (Some (nth i fp 0)) (Some (nth (S i) fp 0))).
Proof.
  intros x xp fp l r i INC LEN I X. set (a := nth i xp 0) in *. set (b := nth (S i) xp 0) in *. assert (AB : a < b) by (apply INC; lia).
  assert (GOAL : forall z, z == line a b (nth i fp 0) (nth (S i) fp 0) x -> oeq (Some z) (interpolate1 x (Fin a) (Fin b) (Some (nth i fp 0)) (Some (nth (S i) fp 0)))).
  { intros z Z. pose proof (C54_linear a b (nth i fp 0) (nth (S i) fp 0) x AB X) as C. destruct (interpolate1 _ _ _ _ _); [cbn in *; lra|destruct C]. }
  assert (ST : sorted xp) by (intros u v U V; destruct (Nat.eq_dec u v) as [->|]; [apply Qle_refl|apply Qlt_le_weak; apply INC; lia]).
  assert (NE : xp <> []) by (intros ->; cbn in I; lia). assert (NF : fp <> []) by (intros ->; cbn in LEN; lia).
  unfold interp. rewrite LEN, Nat.eqb_refl. cbn [negb]. destruct (Nat.eqb_spec (List.length xp) 0); [lia|].
  assert (HD : hd 0 xp = nth 0 xp 0) by (destruct xp; auto). rewrite HD. assert (X1 : Qltb x (nth 0 xp 0) = false) by (apply Qltb_false_iff; pose proof (ST 0%nat i ltac:(lia) ltac:(lia)); fold a in H; lra). rewrite X1.
  rewrite (last_nth xp) by auto. assert (X2 : Qltb (nth (List.length xp - 1) xp 0) x = false) by (apply Qltb_false_iff; pose proof (ST (S i) (List.length xp - 1)%nat ltac:(lia) ltac:(lia)); fold b in H; lra). rewrite X2.
  destruct (Nat.eqb_spec (List.length xp) 1); [lia|].
  destruct (C54_searchsorted xp x ST) as [_ (m & E & L & A & B)]. cbn [searchsorted] in E. rewrite E.
  assert (IM : (i < m)%nat) by (destruct (Nat.le_gt_cases m i) as [C|C]; auto; pose proof (B i C ltac:(lia)) as D; fold a in D; lra).
  destruct (Nat.leb_spec (List.length xp) m) as [C|C].
  - (* the end of the last segment *)
    eexists. split; [reflexivity|]. apply GOAL. assert (XB : x == b). { pose proof (A (List.length xp - 1)%nat ltac:(lia)). pose proof (ST (S i) (List.length xp - 1)%nat ltac:(lia) ltac:(lia)). fold b in H0. lra. }
    assert (SI : S i = (List.length xp - 1)%nat). { destruct (Nat.eq_dec (S i) (List.length xp - 1)) as [|N]; auto. pose proof (INC (S i) (List.length xp - 1)%nat ltac:(lia) ltac:(lia)). fold b in H. pose proof (A (List.length xp - 1)%nat ltac:(lia)). lra. }
    rewrite (last_nth fp) by auto. rewrite LEN, <- SI. unfold line. rewrite XB. field. lra.
  - destruct m as [|j]; [lia|]. eexists. split; [reflexivity|]. apply GOAL.
    destruct (Nat.eq_dec j i) as [->|NJ]; [fold a b; unfold line; reflexivity|].
    (* x is the next point *)
    assert (JI : (S i <= j)%nat) by lia. pose proof (A j ltac:(lia)) as AJ. pose proof (ST (S i) j JI ltac:(lia)) as BJ. fold b in BJ. assert (XB : x == b) by lra.
    assert (j = S i). { destruct (Nat.eq_dec j (S i)) as [|N]; auto. pose proof (INC (S i) j ltac:(lia) ltac:(lia)) as Y. fold b in Y. lra. } subst j. fold b.
    assert (E2 : nth (S i) fp 0 + (nth (S (S i)) fp 0 - nth (S i) fp 0) * (x - b) / (nth (S (S i)) xp 0 - b) == nth (S i) fp 0) by (unfold Qdiv; rewrite XB; ring).
    rewrite E2. unfold line. rewrite XB. field. lra.
Qed.
Example C54_case : oeq (interpolate1 3 (Fin 1) (Fin 5) (Some 10) (Some 20)) (Some 15) /\ is_ok (interp 3 [0; 2; 4] [5; 6; 10] None None) 8 /\ sorted [0; 2; 4].
Proof. split; [vm_compute; reflexivity|]. split; [eexists; split; vm_compute; reflexivity|]. intros i j I J. destruct j as [|[|[|j]]], i as [|[|[|i]]]; cbn in *; try lia; lra. Qed.
Example C54_case_tuple : map (option_map Qred) (interpolate_tuple 3 (Fin 1) (Fin 5) [Some 10; None; Some 7] [Some 20; Some 1; Some 7]) = [Some 15; None; Some 7].
Proof. vm_compute. reflexivity. Qed.

(** ** C55: ranges *)
Theorem C55_linspace : forall a b n, (2 <= n)%nat ->
  List.length (linspace a b (Z.of_nat n) true) = n /\ nth 0 (linspace a b (Z.of_nat n) true) 0 == a /\ nth (n - 1) (linspace a b (Z.of_nat n) true) 0 == b /\
  forall i, (S i < n)%nat -> nth (S i) (linspace a b (Z.of_nat n) true) 0 - nth i (linspace a b (Z.of_nat n) true) 0 == (b - a) / inject_Z (Z.of_nat n - 1).
Proof.
  intros a b n N. unfold linspace. destruct (Z.eqb_spec (Z.of_nat n) 0); [lia|]. destruct (Z.eqb_spec (Z.of_nat n) 1); [lia|]. rewrite Nat2Z.id.
  set (g := fun i => a + (b - a) / inject_Z (Z.of_nat n - 1) * inject_Z (Z.of_nat i)).
  assert (NTH : forall i, (i < n)%nat -> nth i (map g (seq 0 n)) 0 = g i). { intros i I. rewrite (nth_indep _ 0 (g 0%nat)) by (rewrite map_length, seq_length; auto). rewrite map_nth. rewrite seq_nth by auto. auto. }
  rewrite map_length, seq_length. split; auto. rewrite !NTH by lia. split; [unfold g; cbn; ring|].
  assert (NZ : ~ inject_Z (Z.of_nat n - 1) == 0) by (intro X; apply (eq_sym (x := _)) in X || idtac; unfold Qeq in X; cbn in X; lia).
  split; [unfold g; replace (Z.of_nat (n - 1)) with (Z.of_nat n - 1)%Z by lia; field; auto|].
  intros i I. rewrite !NTH by lia. unfold g. rewrite Nat2Z.inj_succ. unfold Z.succ. rewrite inject_Z_plus. cbn [inject_Z]. ring.
Qed.
Theorem C55_linspace_open : forall a b n, (1 <= n)%nat -> List.length (linspace a b (Z.of_nat n) false) = n /\ forall i, (i < n)%nat -> nth i (linspace a b (Z.of_nat n) false) 0 == a + (b - a) * inject_Z (Z.of_nat i) / inject_Z (Z.of_nat n).
Proof.
  intros a b n N. unfold linspace. destruct (Z.eqb_spec (Z.of_nat n) 0); [lia|]. destruct (Z.eqb_spec (Z.of_nat n) 1) as [E|E].
  - assert (n = 1%nat) by lia. subst n. split; auto. intros [|i] I; [|lia]. cbn. field.
  - rewrite Nat2Z.id. set (g := fun i => a + (b - a) / inject_Z (Z.of_nat n) * inject_Z (Z.of_nat i)). rewrite map_length, seq_length. split; auto. intros i I.
    rewrite (nth_indep _ 0 (g 0%nat)) by (rewrite map_length, seq_length; auto). rewrite map_nth. rewrite seq_nth by auto. unfold g. cbn [Nat.add]. unfold Qdiv. ring.
Qed.
Theorem C55_linspace_few : forall a b e, linspace a b 1 e = [a] /\ forall n, (n <= 0)%Z -> linspace a b n e = [].
Proof. intros a b e. split; auto. intros n N. unfold linspace. destruct (Z.eqb_spec n 0); auto. destruct (Z.eqb_spec n 1); [lia|]. replace (Z.to_nat n) with 0%nat by lia. auto. Qed.
(** arange with a positive step: all start + i*step before stop, and no others *)
Definition at_ (start step : Q) (i : nat) : Q := start + inject_Z (Z.of_nat i) * step.
Lemma at_S : forall start step i, at_ start step (S i) == at_ (start + step) step i.
Proof. intros. unfold at_. rewrite Nat2Z.inj_succ. unfold Z.succ. rewrite inject_Z_plus. cbn [inject_Z]. ring. Qed.
Lemma steps_exist : forall d s, 0 < s -> exists n, d <= inject_Z (Z.of_nat n) * s.
Proof.
  intros d s S. exists (Z.to_nat (Qceiling (d / s))). assert (X : d / s <= inject_Z (Qceiling (d / s))) by apply Qle_ceiling.
  assert (Y : inject_Z (Qceiling (d / s)) <= inject_Z (Z.of_nat (Z.to_nat (Qceiling (d / s))))) by (rewrite <- Zle_Qle; lia).
  assert (E : d == d / s * s) by (field; lra). rewrite E at 1. apply Qmult_le_compat_r; lra.
Qed.
Lemma arange_step : forall k value stop step, arange_from (S k) value stop step =
  if (Qltb 0 step && Qle_bool stop value) || (Qltb step 0 && Qle_bool value stop) then UOk [] else match arange_from k (value + step) stop step with UOk l => UOk (value :: l) | e => e end.
Proof. reflexivity. Qed.
Lemma at_0 : forall start step, at_ start step 0 == start.
Proof. intros. unfold at_. cbn. ring. Qed.
Lemma arange_up : forall step, 0 < step -> forall n start stop, stop <= at_ start step n -> exists l, arange_from (S n) start stop step = UOk l /\
  (forall i, (i < List.length l)%nat -> nth i l 0 == at_ start step i) /\ (forall i, (i < List.length l)%nat <-> at_ start step i < stop).
Proof.
  intros step S. assert (S1 : Qltb 0 step = true) by (apply Qltb_iff; auto). assert (S2 : Qltb step 0 = false) by (apply Qltb_false_iff; lra).
  assert (UP : forall start i, start <= at_ start step i) by (intros start i; unfold at_; assert (0 <= inject_Z (Z.of_nat i) * step) by (apply Qmult_le_0_compat; [unfold Qle; cbn; lia|lra]); lra).
  assert (STOP : forall start stop, stop <= start -> exists l, UOk (@nil Q) = UOk l /\ (forall i, (i < List.length l)%nat -> nth i l 0 == at_ start step i) /\ (forall i, (i < List.length l)%nat <-> at_ start step i < stop)).
  { intros start stop Q. exists []. split; auto. split; [intros i X; cbn in X; lia|]. intro i. split; intro X; [cbn in X; lia|]. pose proof (UP start i). lra. }
  induction n as [|n IH]; intros start stop E; rewrite arange_step, S1, S2; cbn [andb]; rewrite orb_false_r; destruct (Qle_bool stop start) eqn:Q; try (apply Qle_bool_iff in Q; auto; fail); apply Qle_bool_false_iff in Q.
  - exfalso. rewrite at_0 in E. lra.
  - destruct (IH (start + step) stop) as (l & A & B & C); [rewrite <- at_S; auto|]. rewrite A. exists (start :: l). split; auto. split.
    + intros [|i] I; cbn [nth]; [rewrite at_0; reflexivity|]. rewrite at_S. apply B. cbn in I. lia.
    + intros [|i]; cbn [List.length]; [rewrite at_0; split; intro; [lra|lia]|]. rewrite at_S, <- C. lia.
Qed.
Theorem C55_arange_up : forall start stop step, 0 < step -> exists fuel l, arange fuel start stop step = UOk l /\
  (forall i, (i < List.length l)%nat -> nth i l 0 == start + inject_Z (Z.of_nat i) * step) /\ (forall i, (i < List.length l)%nat <-> start + inject_Z (Z.of_nat i) * step < stop).
Proof.
  intros start stop step S. destruct (steps_exist (stop - start) step S) as [n N]. destruct (arange_up step S n start stop) as (l & L); [unfold at_; lra|]. exists (Datatypes.S n), l. exact L.
Qed.
Lemma arange_neg : forall fuel start stop step, match arange_from fuel start stop step, arange_from fuel (- start) (- stop) (- step) with UOk a, UOk b => List.length a = List.length b /\ forall i, nth i a 0 == - nth i b 0 | UEr e, UEr f => e = f | _, _ => False end.
Proof.
  assert (NEG : forall a b, Qltb (- a) (- b) = Qltb b a) by (intros a b; destruct (Qltb b a) eqn:E; [apply Qltb_iff in E; apply Qltb_iff; lra|apply Qltb_false_iff in E; apply Qltb_false_iff; lra]).
  assert (NEL : forall a b, Qle_bool (- a) (- b) = Qle_bool b a) by (intros a b; destruct (Qle_bool b a) eqn:E; [apply Qle_bool_iff in E; apply Qle_bool_iff; lra|apply Qle_bool_false_iff in E; apply Qle_bool_false_iff; lra]).
  assert (EXT : forall fuel s1 s2 stop step, s1 == s2 -> match arange_from fuel s1 stop step, arange_from fuel s2 stop step with UOk a, UOk b => List.length a = List.length b /\ forall i, nth i a 0 == nth i b 0 | UEr e, UEr f => e = f | _, _ => False end).
  { induction fuel as [|k IH]; intros s1 s2 stop step E; cbn [arange_from]; auto.
    assert (X : Qle_bool stop s1 = Qle_bool stop s2) by (destruct (Qle_bool stop s2) eqn:Y; [apply Qle_bool_iff in Y; apply Qle_bool_iff; lra|apply Qle_bool_false_iff in Y; apply Qle_bool_false_iff; lra]).
    assert (X2 : Qle_bool s1 stop = Qle_bool s2 stop) by (destruct (Qle_bool s2 stop) eqn:Y; [apply Qle_bool_iff in Y; apply Qle_bool_iff; lra|apply Qle_bool_false_iff in Y; apply Qle_bool_false_iff; lra]).
    rewrite X, X2. destruct (_ || _); [split; auto; intro i; destruct i; reflexivity|]. specialize (IH (s1 + step) (s2 + step) stop step ltac:(lra)). destruct (arange_from k (s1 + step) stop step), (arange_from k (s2 + step) stop step); auto. destruct IH as [L N]. split; [cbn; auto|]. intros [|i]; cbn; auto. }
  induction fuel as [|k IH]; intros start stop step; cbn [arange_from]; auto.
  assert (Z1 : Qltb 0 (- step) = Qltb step 0) by (rewrite <- (NEG 0 step); reflexivity). assert (Z2 : Qltb (- step) 0 = Qltb 0 step) by (rewrite <- (NEG step 0); reflexivity).
  rewrite Z1, Z2, !NEL. rewrite (orb_comm (Qltb step 0 && Qle_bool start stop)). destruct (_ || _); [split; auto; intro i; destruct i; reflexivity|].
  specialize (IH (start + step) stop step). pose proof (EXT k (- start + - step) (- (start + step)) (- stop) (- step) ltac:(ring)) as EX.
  destruct (arange_from k (start + step) stop step), (arange_from k (- (start + step)) (- stop) (- step)), (arange_from k (- start + - step) (- stop) (- step)); try tauto; try congruence.
  destruct IH as [L N], EX as [L2 N2]. split; [cbn; lia|]. intros [|i]; cbn; [ring|]. rewrite N, N2. reflexivity.
Qed.
Theorem C55_arange_down : forall start stop step, step < 0 -> exists fuel l, arange fuel start stop step = UOk l /\
  (forall i, (i < List.length l)%nat -> nth i l 0 == start + inject_Z (Z.of_nat i) * step) /\ (forall i, (i < List.length l)%nat <-> stop < start + inject_Z (Z.of_nat i) * step).
Proof.
  intros start stop step S. destruct (C55_arange_up (- start) (- stop) (- step) ltac:(lra)) as (fuel & l & A & B & C). pose proof (arange_neg fuel start stop step) as X. unfold arange in *. rewrite A in X.
  destruct (arange_from fuel start stop step) as [m|] eqn:EM; [|destruct X]. destruct X as [L N]. exists fuel, m. split; [exact EM|]. split.
  - intros i I. rewrite L in I. rewrite N, B by auto. ring.
  - intro i. rewrite L, C. assert (E : - start + inject_Z (Z.of_nat i) * - step == - (start + inject_Z (Z.of_nat i) * step)) by ring. rewrite E. split; intro; lra.
Qed.
(** with step 0 it never ends *)
Theorem C55_step_zero_refuted : exists start stop, forall fuel, arange fuel start stop 0 = UEr UFuel.
Proof.
  exists 0, 10. unfold arange. intro fuel. generalize 0 at 1. induction fuel as [|k IH]; intro v; cbn [arange_from]; auto.
  assert (X : Qltb 0 0 = false) by (apply Qltb_false_iff; lra). rewrite X. cbn [andb orb]. rewrite IH. auto.
Qed.
Example C55_case : match arange 10 0 1 (3 # 10) with UOk l => map Qred l = [0; 3 # 10; 3 # 5; 9 # 10] | _ => False end /\ map Qred (linspace 0 10 5 true) = [0; 5 # 2; 5; 15 # 2; 10].
Proof. split; vm_compute; reflexivity. Qed.

(** ** C53: names *)
Lemma digits_inj : forall m n, digits m = digits n -> m = n.
Proof.
  intros m n E. unfold digits in E. apply (f_equal NilEmpty.uint_of_string) in E. rewrite !NilEmpty.usu in E. injection E as E. apply (f_equal Nat.of_uint) in E. rewrite !Unsigned.of_to in E. auto.
Qed.
Fixpoint has_char (c : ascii) (s : string) : bool := match s with EmptyString => false | String x r => Ascii.eqb c x || has_char c r end.
Lemma digits_nodot : forall n, has_char "." (digits n) = false.
Proof. intro n. unfold digits. generalize (Nat.to_uint n). induction u; cbn; auto. Qed.
(** everything after the last dot *)
Lemma app_dot_inj : forall a b x y, has_char "." x = false -> has_char "." y = false -> (a ++ "." ++ x)%string = (b ++ "." ++ y)%string -> a = b /\ x = y.
Proof.
  assert (HA : forall a x, has_char "." (a ++ String "." x)%string = true) by (induction a; intros; cbn; auto; rewrite IHa, orb_true_r; auto).
  induction a as [|c a IH]; intros [|d b] x y X Y E; cbn in E.
  - injection E as ->. auto.
  - injection E as <- ->. exfalso. specialize (HA b y). congruence.
  - injection E as -> E. exfalso. specialize (HA a x). congruence.
  - injection E as -> E. destruct (IH b x y X Y E). subst. auto.
Qed.
Lemma but_last_app : forall s c, last_char s = Some c -> s = (but_last s ++ String c "")%string.
Proof. induction s as [|a s IH]; intros c L; cbn in *; [discriminate|]. destruct s as [|b s]; [injection L as ->; auto|]. exact (f_equal (String a) (IH c L)). Qed.
(** the requested name, after the first lines of _set_name *)
Definition asked (cls : string) (name : option string) : string :=
  match name with None => (cls ++ dot)%string | Some n => if String.eqb n "" then (cls ++ dot)%string else if String.eqb n dot || String.eqb n comma then (cls ++ n)%string else n end.
(** all names given in a sequence of creations (class, name), of one kind *)
Fixpoint create (l : list (string * option string)) (ser : list (string * nat)) : list string :=
  match l with [] => [] | (cls, n) :: t => let '(ser', s) := set_name cls n ser in s :: create t ser' end.
Lemma set_name_dot : forall cls n ser, ends_dot (asked cls n) = true ->
  exists base k, asked cls n = (base ++ dot)%string /\ (match slook (asked cls n) ser with Some j => k = S j | None => k = 0%nat end) /\ set_name cls n ser = (sset (asked cls n) k ser, (base ++ dot ++ digits k)%string).
Proof.
  intros cls n ser E. unfold set_name. fold (asked cls n). rewrite E. cbn [orb]. assert (C : ends_comma (asked cls n) = false) by (unfold ends_dot, ends_comma in *; destruct (last_char (asked cls n)) as [c|]; auto; apply Ascii.eqb_eq in E; subst; auto).
  rewrite C. assert (L : last_char (asked cls n) = Some "."%char) by (unfold ends_dot in E; destruct (last_char (asked cls n)) as [c|]; [apply Ascii.eqb_eq in E; subst; auto|discriminate]).
  apply but_last_app in L. exists (but_last (asked cls n)). eexists. split; [exact L|]. split; [|reflexivity]. destruct (slook (asked cls n) ser); auto.
Qed.
(** names that end with a dot (or are not given) are all different *)
Theorem C53_unique : forall l, (forall cls n, In (cls, n) l -> ends_dot (asked cls n) = true) -> NoDup (create l []).
Proof.
  intro l. assert (G : forall l ser, (forall cls n, In (cls, n) l -> ends_dot (asked cls n) = true) -> NoDup (create l ser) /\
    forall s, In s (create l ser) -> exists base k, s = (base ++ dot ++ digits k)%string /\ match slook (base ++ dot)%string ser with Some j => (j < k)%nat | None => True end).
  { clear. induction l as [|[cls n] t IH]; intros ser A; cbn [create]; [split; [constructor|intros s []]|].
    destruct (set_name_dot cls n ser) as (base & k & EB & K & ES); [apply A; left; auto|]. rewrite ES. destruct (IH (sset (asked cls n) k ser)) as [ND IN]; [intros c m M; apply A; right; auto|].
    assert (LK : forall b, slook b (sset (asked cls n) k ser) = if String.eqb b (asked cls n) then Some k else slook b ser) by reflexivity.
    split.
    - constructor; auto. intro X. destruct (IN _ X) as (b & j & E & J). apply app_dot_inj in E; auto using digits_nodot. destruct E as [<- E]. apply digits_inj in E. subst j. rewrite LK, <- EB, String.eqb_refl in J. lia.
    - intros s [<-|S]; [exists base, k; split; auto; rewrite <- EB; destruct (slook (asked cls n) ser); auto; lia|]. destruct (IN s S) as (b & j & E & J). exists b, j. split; auto. rewrite LK in J.
      destruct (String.eqb_spec (b ++ dot)%string (asked cls n)) as [Q|Q]; auto. rewrite Q. destruct (slook (asked cls n) ser); auto. lia. }
  intro A. apply (G l [] A).
Qed.
(** names that end with a comma: also all different; numbered from 1 *)
Lemma set_name_comma : forall cls n ser, ends_comma (asked cls n) = true ->
  exists base k, asked cls n = (base ++ comma)%string /\ (match slook (asked cls n) ser with Some j => k = S j | None => k = 1%nat end) /\ set_name cls n ser = (sset (asked cls n) k ser, (base ++ dot ++ digits k)%string).
Proof.
  intros cls n ser E. unfold set_name. fold (asked cls n). rewrite E, orb_true_r. assert (L : last_char (asked cls n) = Some ","%char) by (unfold ends_comma in E; destruct (last_char (asked cls n)) as [c|]; [apply Ascii.eqb_eq in E; subst; auto|discriminate]).
  apply but_last_app in L. exists (but_last (asked cls n)). eexists. split; [exact L|]. split; [|reflexivity]. destruct (slook (asked cls n) ser); auto.
Qed.
Theorem C53_unique_comma : forall l, (forall cls n, In (cls, n) l -> ends_comma (asked cls n) = true) -> NoDup (create l []).
Proof.
  intro l. assert (G : forall l ser, (forall cls n, In (cls, n) l -> ends_comma (asked cls n) = true) -> NoDup (create l ser) /\
    forall s, In s (create l ser) -> exists base k, s = (base ++ dot ++ digits k)%string /\ match slook (base ++ comma)%string ser with Some j => (j < k)%nat | None => True end).
  { clear. induction l as [|[cls n] t IH]; intros ser A; cbn [create]; [split; [constructor|intros s []]|].
    destruct (set_name_comma cls n ser) as (base & k & EB & K & ES); [apply A; left; auto|]. rewrite ES. destruct (IH (sset (asked cls n) k ser)) as [ND IN]; [intros c m M; apply A; right; auto|].
    assert (LK : forall b, slook b (sset (asked cls n) k ser) = if String.eqb b (asked cls n) then Some k else slook b ser) by reflexivity.
    split.
    - constructor; auto. intro X. destruct (IN _ X) as (b & j & E & J). apply app_dot_inj in E; auto using digits_nodot. destruct E as [<- E]. apply digits_inj in E. subst j. rewrite LK, <- EB, String.eqb_refl in J. lia.
    - intros s [<-|S]; [exists base, k; split; auto; rewrite <- EB; destruct (slook (asked cls n) ser); auto; lia|]. destruct (IN s S) as (b & j & E & J). exists b, j. split; auto. rewrite LK in J.
      destruct (String.eqb_spec (b ++ comma)%string (asked cls n)) as [Q|Q]; auto. rewrite Q. destruct (slook (asked cls n) ser); auto. lia. }
  intro A. apply (G l [] A).
Qed.
(** but a name with a dot and the same name with a comma collide *)
Theorem C53_unique_refuted : exists l, (forall cls n, In (cls, n) l -> ends_dot (asked cls n) = true \/ ends_comma (asked cls n) = true) /\ ~ NoDup (create l []).
Proof.
  exists [("car"%string, None); ("car"%string, Some "."%string); ("car"%string, Some ","%string)]. split.
  - intros cls n [X|[X|[X|[]]]]; injection X as <- <-; cbn; auto.
  - intro N. replace (create _ []) with ["car.0"; "car.1"; "car.1"]%string in N by (vm_compute; reflexivity). inversion N as [|? ? _ N2]. inversion N2 as [|? ? X _]. apply X. left. auto.
Qed.
Example C53_case : create [("car", None); ("car", Some "truck."); ("car", None); ("car", Some "truck.0."); ("car", Some "truck.")]%string [] = ["car.0"; "truck.0"; "car.1"; "truck.0.0"; "truck.1"]%string.
Proof. vm_compute. reflexivity. Qed.
Print Assumptions C53_unique. Print Assumptions C53_unique_comma. Print Assumptions C53_unique_refuted.
Print Assumptions C54_ends. Print Assumptions C54_linear. Print Assumptions C54_between. Print Assumptions C54_monotone. Print Assumptions C54_swap. Print Assumptions C54_endless.
Print Assumptions C54_empty_interval_refuted. Print Assumptions C54_tuple. Print Assumptions C54_searchsorted. Print Assumptions C54_interp.
Print Assumptions C55_linspace. Print Assumptions C55_linspace_open. Print Assumptions C55_linspace_few. Print Assumptions C55_arange_up. Print Assumptions C55_arange_down. Print Assumptions C55_step_zero_refuted.
Print Assumptions C56_from. Print Assumptions C56_to. Print Assumptions C56_there_and_back. Print Assumptions C56_compose. Print Assumptions C56_additive. Print Assumptions C56_factor. Print Assumptions C56_na.
