(** C89: printed statistics show the numbers. *)
From Coq Require Import String QArith Qabs Qround ZArith List Ascii Bool Lia Lqa.
From Verif Require Import Fmt.
Import ListNotations.
Open Scope Z_scope.

(** ** What a printed number means *)
Definition value_of (ds : list Z) : Z := fold_left (fun a d => 10 * a + d) ds 0.
Definition digitals (ds : list Z) : Prop := Forall (fun d => 0 <= d <= 9) ds.
(** spaces, sign, digits, point and digits, e+ and digits, spaces *)
Definition numeral (t : text) (v : Q) : Prop :=
  exists n1 n2 (neg : bool) ds fs es, digitals ds /\ digitals fs /\ digitals es /\ ds <> [] /\
  t = spaces n1 ++ (if neg then ["-"%char] else []) ++ map dc ds ++ (match fs with [] => [] | _ => "."%char :: map dc fs end) ++ (match es with [] => [] | _ => ["e"; "+"]%char ++ map dc es end) ++ spaces n2 /\
  (v == (if neg then -1 else 1) * (inject_Z (value_of ds) + inject_Z (value_of fs) / inject_Z (10 ^ Z.of_nat (length fs))) * inject_Z (10 ^ value_of es))%Q.

(** ** Proofs *)
Lemma value_app : forall a b, value_of (a ++ b) = value_of a * 10 ^ Z.of_nat (length b) + value_of b.
Proof.
  assert (G : forall b x, fold_left (fun a d => 10 * a + d) b x = x * 10 ^ Z.of_nat (length b) + value_of b).
  { unfold value_of. induction b as [|d b IH]; intros x; [cbn; lia|]. cbn [fold_left length]. rewrite IH, (IH (10 * 0 + d)). rewrite Nat2Z.inj_succ, Z.pow_succ_r by lia. lia. }
  intros a b. unfold value_of at 1. rewrite fold_left_app. apply G.
Qed.
Lemma pw_pos : forall n, 0 < pw n. Proof. intros n. unfold pw. apply Z.pow_pos_nonneg; lia. Qed.
Lemma pw_S : forall n, pw (S n) = 10 * pw n. Proof. intros n. unfold pw. rewrite Nat2Z.inj_succ, Z.pow_succ_r by lia. reflexivity. Qed.
Lemma pw_add : forall a b, pw (a + b) = pw a * pw b. Proof. intros. unfold pw. rewrite Nat2Z.inj_add, Z.pow_add_r by lia. reflexivity. Qed.
Lemma fdigits_ok : forall k n, digitals (fdigits k n) /\ length (fdigits k n) = k /\ (0 <= n < pw k -> value_of (fdigits k n) = n).
Proof.
  induction k as [|k IH]; intros n; [split; [constructor|split; [reflexivity|]]; unfold pw; cbn; lia|]. destruct (IH (n / 10)) as (A & B & C). cbn [fdigits]. split; [|split].
  - apply Forall_app. split; auto. constructor; [|constructor]. pose proof (Z.mod_pos_bound n 10). lia.
  - rewrite app_length, B. cbn. lia.
  - intros H. rewrite pw_S in H. rewrite value_app, C. cbn [length]. change (value_of [n mod 10]) with (10 * 0 + n mod 10). change (10 ^ Z.of_nat 1) with 10. pose proof (Z.div_mod n 10). lia.
    split; [apply Z.div_pos; lia | apply Z.div_lt_upper_bound; lia].
Qed.
Lemma digits_loop_ok : forall f n, 0 <= n < 2 ^ Z.of_nat f -> (f > 0)%nat -> digitals (digits_loop f n) /\ value_of (digits_loop f n) = n /\ digits_loop f n <> [] /\ (forall k, (k > 0)%nat -> n < pw k -> (length (digits_loop f n) <= k)%nat).
Proof.
  induction f as [|f IH]; intros n H F; [lia|]. cbn [digits_loop]. destruct (Z.ltb_spec n 10).
  - split; [repeat constructor; lia|]. split; [unfold value_of; cbn; lia|]. split; [discriminate|]. intros k K _. cbn. lia.
  - assert (F1 : (f > 0)%nat). { destruct f; [|lia]. cbn in H. lia. } rewrite Nat2Z.inj_succ, Z.pow_succ_r in H by lia. destruct (IH (n / 10)) as (A & B & C & D); [split; [apply Z.div_pos; lia | apply Z.div_lt_upper_bound; lia] | auto|].
    split; [apply Forall_app; split; auto; constructor; [|constructor]; pose proof (Z.mod_pos_bound n 10); lia|]. split; [|split].
    + rewrite value_app, B. change (value_of [n mod 10]) with (10 * 0 + n mod 10). change (10 ^ Z.of_nat (length [n mod 10])) with 10. pose proof (Z.div_mod n 10). lia.
    + intros E. apply app_eq_nil in E. destruct E; discriminate.
    + intros k K L. rewrite app_length. cbn [length]. destruct k as [|k]; [lia|]. rewrite pw_S in L. destruct k as [|k]; [unfold pw in L; cbn in L; lia|]. assert ((length (digits_loop f (n / 10)) <= S k)%nat); [|lia]. apply D; [lia | apply Z.div_lt_upper_bound; lia].
Qed.
Lemma digits_ok : forall n, 0 <= n -> digitals (digits n) /\ value_of (digits n) = n /\ digits n <> [] /\ (forall k, (k > 0)%nat -> n < pw k -> (length (digits n) <= k)%nat).
Proof.
  intros n H. unfold digits. apply digits_loop_ok; [|lia]. split; auto. rewrite Nat2Z.inj_succ, Z2Nat.id by apply Z.log2_nonneg. destruct (Z.eq_dec n 0) as [->|N]; [cbn; lia|]. apply Z.log2_spec. lia.
Qed.
Lemma rhe_near : forall q, (Qabs (inject_Z (rhe q) - q) <= 1 # 2)%Q.
Proof.
  intros q. pose proof (Qfloor_le q) as L. pose proof (Qlt_floor q) as U. rewrite inject_Z_plus in U. change (inject_Z 1) with 1%Q in U. unfold rhe. apply Qabs_Qle_condition.
  destruct (Qcompare_spec (q - inject_Z (Qfloor q)) (1 # 2)) as [E|E|E]; [destruct (Z.even (Qfloor q))| |]; try rewrite inject_Z_plus; try change (inject_Z 1) with 1%Q; split; lra.
Qed.
Lemma rhe_nonneg : forall q, (0 <= q)%Q -> 0 <= rhe q.
Proof.
  intros q H. pose proof (rhe_near q) as N. apply Qabs_Qle_condition in N. destruct N as (A & B). destruct (Z_lt_le_dec (rhe q) 0) as [L|L]; [|auto]. exfalso. assert (X : rhe q <= -1) by lia. rewrite Zle_Qle in X. change (inject_Z (-1)) with (-1)%Q in X. lra.
Qed.
Lemma expon_loop_ok : forall f q, (1 <= q)%Q -> (q < inject_Z (2 ^ Z.of_nat f))%Q -> (inject_Z (pw (expon_loop f q)) <= q)%Q /\ (q < inject_Z (pw (S (expon_loop f q))))%Q.
Proof.
  induction f as [|f IH]; intros q A B; [exfalso; change (inject_Z (2 ^ Z.of_nat 0)) with 1%Q in B; lra|]. cbn [expon_loop]. destruct (Qle_bool (inject_Z 10) q) eqn:E.
  - apply Qle_bool_iff in E. change (inject_Z 10) with 10%Q in *. rewrite Nat2Z.inj_succ, Z.pow_succ_r, inject_Z_mult in B by lia. change (inject_Z 2) with 2%Q in B.
    assert (D : (q / 10 == q * (1 # 10))%Q) by (unfold Qdiv; reflexivity).
    assert (P : (0 < inject_Z (2 ^ Z.of_nat f))%Q) by (change 0%Q with (inject_Z 0); rewrite <- Zlt_Qlt; apply Z.pow_pos_nonneg; lia).
    destruct (IH (q / 10)%Q) as (L & U); [lra | lra|]. rewrite (pw_S (S _)), pw_S, inject_Z_mult. rewrite pw_S, inject_Z_mult in U. rewrite inject_Z_mult, inject_Z_mult. change (inject_Z 10) with 10%Q in *. split; lra.
  - assert (X : (q < inject_Z 10)%Q) by (apply Qnot_le_lt; intros L; apply Qle_bool_iff in L; congruence). change (inject_Z (pw 0)) with 1%Q. change (inject_Z (pw 1)) with (inject_Z 10). split; auto.
Qed.
Lemma expon_ok : forall q, (1 <= q)%Q -> (inject_Z (pw (expon q)) <= q)%Q /\ (q < inject_Z (pw (S (expon q))))%Q.
Proof.
  intros q H. unfold expon. apply expon_loop_ok; auto. rewrite Nat2Z.inj_succ, Z2Nat.id by apply Z.log2_nonneg.
  assert (F : 1 <= Qfloor q). { change 1 with (Qfloor 1). apply Qfloor_resp_le. exact H. }
  pose proof (Z.log2_spec (Qfloor q)) as S. pose proof (Qlt_floor q) as U. eapply Qlt_le_trans; [exact U|]. rewrite <- Zle_Qle. lia.
Qed.
Lemma spaces_length : forall n, length (spaces n) = n. Proof. intros. apply repeat_length. Qed.
Lemma rjust_length : forall n t, (length t <= n)%nat -> length (rjust n t) = n.
Proof. intros n t H. unfold rjust. rewrite app_length, spaces_length. lia. Qed.
Lemma frac_length : forall k n, length (frac k n) = match k with O => O | _ => S k end.
Proof. intros k n. unfold frac. destruct k; [reflexivity|]. cbn [length]. rewrite map_length. destruct (fdigits_ok (S k) n) as (_ & -> & _). reflexivity. Qed.
Lemma frac_is : forall k n, frac k n = match fdigits k n with [] => [] | _ => "."%char :: map dc (fdigits k n) end.
Proof. intros k n. destruct (fdigits_ok k n) as (_ & L & _). unfold frac. destruct k; [reflexivity|]. destruct (fdigits (S k) n) eqn:E; [discriminate L | reflexivity]. Qed.
Lemma qpw_pos : forall n, (0 < inject_Z (pw n))%Q. Proof. intros n. change 0%Q with (inject_Z 0). rewrite <- Zlt_Qlt. apply pw_pos. Qed.
Lemma near_div : forall (m a p : Q), (0 < p)%Q -> (Qabs (m - a * p) <= 1 # 2)%Q -> (Qabs (m / p - a) <= (1 # 2) / p)%Q.
Proof.
  intros m a p P H. apply Qabs_Qle_condition in H. destruct H as (A & B). apply Qabs_Qle_condition.
  assert (E : (m / p - a == (m - a * p) / p)%Q) by (field; lra). rewrite E. split.
  - apply Qle_shift_div_l; [exact P|]. assert (F : (- ((1 # 2) / p) * p == - (1 # 2))%Q) by (field; lra). rewrite F. exact A.
  - apply Qle_shift_div_r; [exact P|]. assert (F : ((1 # 2) / p * p == 1 # 2)%Q) by (field; lra). rewrite F. exact B.
Qed.
Lemma split_pw : forall n d, 0 <= n -> (inject_Z (n / pw d) + inject_Z (n mod pw d) / inject_Z (pw d) == inject_Z n / inject_Z (pw d))%Q.
Proof.
  intros n d H. pose proof (pw_pos d) as P. pose proof (qpw_pos d) as Q. rewrite (Z.div_mod n (pw d)) at 3 by lia. rewrite inject_Z_plus, inject_Z_mult. field. lra.
Qed.
Lemma qneg_not : forall q, Qle_bool 0 q = false -> (q < 0)%Q.
Proof. intros q E. apply Qnot_le_lt. intros L. apply Qle_bool_iff in L. congruence. Qed.
Lemma fixed_exact : forall n d q, numeral (rjust n (fixed d q)) ((if Qle_bool 0 q then 1 else -1) * (inject_Z (rhe (Qabs q * inject_Z (pw d))) / inject_Z (pw d)))%Q.
Proof.
  intros n d q. pose proof (qpw_pos d) as P. set (m := rhe (Qabs q * inject_Z (pw d))). assert (M : 0 <= m) by (apply rhe_nonneg; apply Qmult_le_0_compat; [apply Qabs_nonneg | lra]).
  destruct (digits_ok (m / pw d)) as (A & B & C & _); [apply Z.div_pos; [auto | apply pw_pos]|]. destruct (fdigits_ok d (m mod pw d)) as (D & E & F).
  exists (n - length (fixed d q))%nat, 0%nat, (negb (Qle_bool 0 q)), (digits (m / pw d)), (fdigits d (m mod pw d)), []. split; [exact A|]. split; [exact D|]. split; [constructor|]. split; [exact C|]. split.
  - unfold rjust. f_equal. unfold fixed. fold m. rewrite frac_is. cbn [spaces repeat app]. rewrite !app_nil_r. destruct (Qle_bool 0 q); reflexivity.
  - rewrite B, F, E by (apply Z.mod_pos_bound, pw_pos). fold (pw d). rewrite split_pw by exact M. change (inject_Z (10 ^ value_of [])) with 1%Q. destruct (Qle_bool 0 q); cbn [negb]; ring.
Qed.
Lemma fixed_means : forall n d q, exists v, numeral (rjust n (fixed d q)) v /\ (Qabs (v - q) <= (1 # 2) / inject_Z (pw d))%Q.
Proof.
  intros n d q. pose proof (qpw_pos d) as P. set (m := rhe (Qabs q * inject_Z (pw d))).
  pose proof (near_div (inject_Z m) (Qabs q) (inject_Z (pw d)) P (rhe_near _)) as N. eexists. split; [apply fixed_exact|]. fold m.
  apply Qabs_Qle_condition in N. destruct N as (N1 & N2). apply Qabs_Qle_condition. destruct (Qle_bool 0 q) eqn:E.
  - apply Qle_bool_iff in E. rewrite Qabs_pos in N1, N2 by exact E. split; lra.
  - apply qneg_not in E. rewrite Qabs_neg in N1, N2 by lra. split; lra.
Qed.
Lemma int_means : forall n k z, numeral (rjust n (str_int z) ++ spaces k) (inject_Z z).
Proof.
  intros n k z. destruct (digits_ok (Z.abs z)) as (A & B & C & _); [lia|]. exists (n - length (str_int z))%nat, k, (z <? 0), (digits (Z.abs z)), [], []. split; [exact A|]. split; [constructor|]. split; [constructor|]. split; [exact C|]. split.
  - unfold rjust, str_int. rewrite <- !app_assoc. reflexivity.
  - rewrite B. change (inject_Z (10 ^ value_of [])) with 1%Q. change (inject_Z (value_of []) / inject_Z (10 ^ Z.of_nat (length (@nil Z))))%Q with (0 / 1)%Q. destruct (Z.ltb_spec z 0).
    + rewrite Z.abs_neq by lia. rewrite inject_Z_opp. field.
    + rewrite Z.abs_eq by lia. field.
Qed.
(** mantissa and exponent *)
Lemma expo_parts : forall p q, (1 <= q)%Q -> exists m e, expo p q = map dc (digits (m / pw p)) ++ frac p (m mod pw p) ++ ["e"; "+"]%char ++ (if Nat.ltb e 10 then [dc 0] else []) ++ map dc (digits (Z.of_nat e)) /\
  pw p <= m < pw (S p) /\ (Qabs (inject_Z m / inject_Z (pw p) * inject_Z (pw e) - q) <= (1 # 2) / inject_Z (pw p) * inject_Z (pw (expon q)))%Q /\ (e <= S (expon q))%nat.
Proof.
  intros p q H. destruct (expon_ok q H) as (L & U). pose proof (qpw_pos (expon q)) as PE. pose proof (qpw_pos p) as PP. set (e := expon q) in *. set (a := (q / inject_Z (pw e))%Q). set (m := rhe (a * inject_Z (pw p))).
  pose proof (rhe_near (a * inject_Z (pw p))) as N. fold m in N. pose proof (near_div _ _ _ PP N) as N'.
  assert (A1 : (1 <= a)%Q) by (apply Qle_shift_div_l; [exact PE | lra]). assert (A2 : (a < 10)%Q). { apply Qlt_shift_div_r; [exact PE|]. rewrite pw_S, inject_Z_mult in U. exact U. }
  assert (Q : (a * inject_Z (pw e) == q)%Q) by (unfold a; field; lra).
  assert (B1 : pw p <= m). { apply Qabs_Qle_condition in N. destruct N as (N1 & N2). destruct (Z_lt_le_dec m (pw p)) as [X|X]; [|exact X]. exfalso. assert (Y : m + 1 <= pw p) by lia. rewrite Zle_Qle, inject_Z_plus in Y. change (inject_Z 1) with 1%Q in Y.
    assert (Z : (1 * inject_Z (pw p) <= a * inject_Z (pw p))%Q) by (apply Qmult_le_compat_r; lra). lra. }
  assert (B2 : m <= pw (S p)). { apply Qabs_Qle_condition in N. destruct N as (N1 & N2). destruct (Z_lt_le_dec (pw (S p)) m) as [X|X]; [|exact X]. exfalso. assert (Y : pw (S p) + 1 <= m) by lia. rewrite Zle_Qle, inject_Z_plus, pw_S, inject_Z_mult in Y. change (inject_Z 1) with 1%Q in Y. change (inject_Z 10) with 10%Q in Y.
    assert (Z : (a * inject_Z (pw p) <= 10 * inject_Z (pw p))%Q) by (apply Qmult_le_compat_r; lra). lra. }
  assert (W : (Qabs (inject_Z m / inject_Z (pw p) * inject_Z (pw e) - q) <= (1 # 2) / inject_Z (pw p) * inject_Z (pw e))%Q).
  { apply Qabs_Qle_condition in N'. destruct N' as (N1 & N2). apply Qabs_Qle_condition. assert (R : (inject_Z m / inject_Z (pw p) * inject_Z (pw e) - q == (inject_Z m / inject_Z (pw p) - a) * inject_Z (pw e))%Q) by (rewrite <- Q at 1; ring). rewrite R. split.
    - assert (T : (- ((1 # 2) / inject_Z (pw p) * inject_Z (pw e)) == (- ((1 # 2) / inject_Z (pw p))) * inject_Z (pw e))%Q) by ring. rewrite T. apply Qmult_le_compat_r; lra.
    - apply Qmult_le_compat_r; lra. }
  unfold expo. fold e. fold a. fold m. destruct (Z.eqb_spec m (pw (S p))) as [X|X].
  - exists (pw p), (S e). split; [reflexivity|]. split; [rewrite pw_S; pose proof (pw_pos p); lia|]. split; [|lia]. assert (R : (inject_Z (pw p) / inject_Z (pw p) * inject_Z (pw (S e)) == inject_Z m / inject_Z (pw p) * inject_Z (pw e))%Q); [|rewrite R; exact W].
    rewrite X, !pw_S, !inject_Z_mult. field. lra.
  - exists m, e. split; [reflexivity|]. split; [lia|]. split; [exact W | lia].
Qed.
Lemma value_zero : forall l, value_of (0 :: l) = value_of l. Proof. reflexivity. Qed.
Lemma expo_means : forall n p q, (1 <= q)%Q -> exists v, numeral (rjust n (expo p q)) v /\ (Qabs (v - q) <= (1 # 2) / inject_Z (pw p) * q)%Q.
Proof.
  intros n p q H. destruct (expo_parts p q H) as (m & e & E & M & N & _). pose proof (pw_pos p) as P. exists (inject_Z m / inject_Z (pw p) * inject_Z (pw e))%Q. split.
  - destruct (digits_ok (m / pw p)) as (A & B & C & _); [apply Z.div_pos; lia|]. destruct (fdigits_ok p (m mod pw p)) as (D & L & F). destruct (digits_ok (Z.of_nat e)) as (A' & B' & C' & _); [lia|].
    set (es := (if Nat.ltb e 10 then [0] else []) ++ digits (Z.of_nat e)).
    assert (ES : digitals es /\ value_of es = Z.of_nat e /\ es <> []).
    { unfold es. destruct (Nat.ltb e 10); cbn [app]; [|auto]. split; [constructor; [lia | auto]|]. split; [rewrite value_zero; auto | discriminate]. }
    destruct ES as (E1 & E2 & E3). exists (n - length (expo p q))%nat, 0%nat, false, (digits (m / pw p)), (fdigits p (m mod pw p)), es. split; [exact A|]. split; [exact D|]. split; [exact E1|]. split; [exact C|]. split.
    + unfold rjust. f_equal. rewrite E, frac_is. cbn [spaces repeat app]. rewrite app_nil_r. f_equal. f_equal. destruct es as [|x es'] eqn:Y; [congruence|]. rewrite <- Y. unfold es. rewrite map_app. destruct (Nat.ltb e 10); reflexivity.
    + rewrite B, F, L, E2 by (apply Z.mod_pos_bound, pw_pos). fold (pw p). fold (pw e). rewrite split_pw by lia. ring.
  - eapply Qle_trans; [exact N|]. destruct (expon_ok q H) as (X & _). pose proof (qpw_pos p) as PP. assert (Y : (0 <= (1 # 2) / inject_Z (pw p))%Q) by (apply Qle_shift_div_l; lra).
    rewrite !(Qmult_comm ((1 # 2) / inject_Z (pw p))). apply Qmult_le_compat_r; auto.
Qed.
Lemma is_int_iff : forall q, is_int q = true <-> (q == inject_Z (Qfloor q))%Q. Proof. intros q. unfold is_int. apply Qeq_bool_iff. Qed.

(** the meaning of a text is unique *)
Definition is_digit (c : ascii) : bool := Nat.leb 48 (nat_of_ascii c) && Nat.leb (nat_of_ascii c) 57.
Fixpoint read_digits (t : text) : list Z * text := match t with c :: t' => if is_digit c then let (ds, r) := read_digits t' in (Z.of_nat (nat_of_ascii c) - 48 :: ds, r) else ([], t) | [] => ([], []) end.
Fixpoint skip (t : text) : text := match t with c :: t' => if Ascii.eqb c " " then skip t' else t | [] => [] end.
Definition read_sign (t : text) : bool * text := match t with c :: t' => if Ascii.eqb c "-" then (true, t') else (false, t) | [] => (false, []) end.
Definition read_frac (t : text) : list Z * text := match t with c :: t' => if Ascii.eqb c "." then read_digits t' else ([], t) | [] => ([], []) end.
Definition read_exp (t : text) : list Z * text := match t with c :: _ :: t' => if Ascii.eqb c "e" then read_digits t' else ([], t) | _ => ([], t) end.
Definition read (t : text) : Q :=
  let (neg, t) := read_sign (skip t) in let (ds, t) := read_digits t in let (fs, t) := read_frac t in let (es, t) := read_exp t in
  ((if neg then -1 else 1) * (inject_Z (value_of ds) + inject_Z (value_of fs) / inject_Z (10 ^ Z.of_nat (length fs))) * inject_Z (10 ^ value_of es))%Q.
Lemma dc_digit : forall d, 0 <= d <= 9 -> is_digit (dc d) = true /\ Z.of_nat (nat_of_ascii (dc d)) - 48 = d /\ Ascii.eqb (dc d) " " = false /\ Ascii.eqb (dc d) "-" = false.
Proof. intros d H. assert (C : d = 0 \/ d = 1 \/ d = 2 \/ d = 3 \/ d = 4 \/ d = 5 \/ d = 6 \/ d = 7 \/ d = 8 \/ d = 9) by lia. repeat destruct C as [-> | C]; try (vm_compute; auto; fail). subst. vm_compute. auto. Qed.
Definition stops (t : text) : Prop := match t with c :: _ => is_digit c = false | [] => True end.
Lemma read_digits_ok : forall ds t, digitals ds -> stops t -> read_digits (map dc ds ++ t) = (ds, t).
Proof.
  induction ds as [|d ds IH]; intros t D S.
  - cbn [map app]. destruct t as [|c t]; [reflexivity|]. cbn [read_digits]. cbn in S. rewrite S. reflexivity.
  - inversion D as [|? ? A B]; subst. destruct (dc_digit d A) as (E1 & E2 & _). cbn [map app read_digits]. rewrite E1, (IH t B S), E2. reflexivity.
Qed.
Lemma skip_spaces : forall n t, skip (spaces n ++ t) = skip t. Proof. induction n as [|n IH]; intros t; [reflexivity | apply IH]. Qed.
Lemma stops_spaces : forall n, stops (spaces n). Proof. destruct n; cbn; reflexivity || exact I. Qed.
Lemma numeral_read : forall t v, numeral t v -> (v == read t)%Q.
Proof.
  intros t v (n1 & n2 & neg & ds & fs & es & D & F & E & N & -> & V). rewrite V. clear V v. unfold read. rewrite skip_spaces.
  destruct ds as [|d ds]; [congruence|]. inversion D as [|? ? A _]; subst. destruct (dc_digit d A) as (_ & _ & X1 & X2).
  set (t3 := match es with [] => [] | _ => ["e"; "+"]%char ++ map dc es end ++ spaces n2).
  set (t2 := match fs with [] => [] | _ => "."%char :: map dc fs end ++ t3).
  assert (S3 : stops t3) by (unfold t3; destruct es; [apply stops_spaces | reflexivity]).
  assert (S2 : stops t2) by (unfold t2; destruct fs; [exact S3 | reflexivity]).
  assert (K : forall b : bool, skip ((if b then ["-"%char] else []) ++ map dc (d :: ds) ++ t2) = (if b then ["-"%char] else []) ++ map dc (d :: ds) ++ t2) by (intros [|]; cbn [app map skip]; [reflexivity | rewrite X1; reflexivity]). rewrite K.
  assert (K2 : read_sign ((if neg then ["-"%char] else []) ++ map dc (d :: ds) ++ t2) = (neg, map dc (d :: ds) ++ t2)) by (destruct neg; cbn [app map read_sign]; [reflexivity | rewrite X2; reflexivity]).
  assert (K3 : read_frac t2 = (fs, t3)).
  { unfold t2, read_frac. destruct fs as [|f fs']; cbn [app].
    - destruct t3 as [|c r] eqn:Q; [reflexivity|]. assert (P : Ascii.eqb c "." = false); [|rewrite P; reflexivity]. unfold t3 in Q. destruct es; [destruct n2; [discriminate Q|]; cbn [app spaces repeat] in Q; injection Q as <- _; reflexivity | cbn [app] in Q; injection Q as <- _; reflexivity].
    - change (Ascii.eqb "." ".") with true. cbv iota. change (dc f :: map dc fs') with (map dc (f :: fs')). apply read_digits_ok; auto. }
  assert (K4 : exists r, read_exp t3 = (es, r)).
  { unfold t3, read_exp. destruct es as [|e es']; cbn [app].
    - destruct n2 as [|[|n2]]; cbn [spaces repeat]; try (change (Ascii.eqb " " "e") with false; cbv iota); eauto.
    - change (Ascii.eqb "e" "e") with true. cbv iota. exists (spaces n2). change (dc e :: map dc es') with (map dc (e :: es')). apply read_digits_ok; auto. apply stops_spaces. }
  destruct K4 as (r & K4).
  rewrite K2, (read_digits_ok (d :: ds) t2 D S2), K3, K4. reflexivity.
Qed.

(** ** Theorems *)
(** a number below the limit is shown exactly if it is whole, and rounded to d decimals otherwise; also if it is negative *)
Theorem C89_value : forall q len d t, (q < inject_Z (10 ^ Z.of_nat (len - d - 1)))%Q -> fn (Val q) len d = Some t ->
  exists v, numeral t v /\ (Qabs (v - q) <= (1 # 2) / inject_Z (10 ^ Z.of_nat d))%Q /\ ((exists z, q == inject_Z z)%Q -> (v == q)%Q).
Proof.
  intros q len d t H E. cbn [fn] in E. destruct (Qle_bool (inject_Z (pw (len - d - 1))) q) eqn:B; [apply Qle_bool_iff in B; unfold pw in B; exfalso; lra|].
  destruct (is_int q) eqn:I; injection E as <-.
  - apply is_int_iff in I. exists (inject_Z (Qfloor q)). split; [apply int_means|]. split; [|intros _; symmetry; exact I]. pose proof (qpw_pos d) as P. unfold pw in P. assert (X : (inject_Z (Qfloor q) - q == 0)%Q) by (rewrite <- I; ring). rewrite X. apply Qle_shift_div_l; [exact P|]. change (Qabs 0) with 0%Q. lra.
  - destruct (fixed_means len d q) as (v & A & C). exists v. split; [exact A|]. split; [exact C|]. intros (z & Z). exfalso. assert (X : (q == inject_Z (Qfloor q))%Q) by (rewrite Z; rewrite Qfloor_Z; reflexivity). apply is_int_iff in X. congruence.
Qed.
(** a number halfway two numbers of d decimals is rounded to the one with an even last digit *)
Lemma rhe_tie : forall q z, (q == inject_Z z + (1 # 2))%Q -> Z.even (rhe q) = true.
Proof.
  intros q z H. assert (F : Qfloor q = z). { rewrite H. pose proof (Qfloor_le (inject_Z z + (1 # 2))) as L. pose proof (Qlt_floor (inject_Z z + (1 # 2))) as U. set (f := Qfloor (inject_Z z + (1 # 2))) in *. rewrite inject_Z_plus in U. change (inject_Z 1) with 1%Q in U.
    assert (A : f < z + 1) by (rewrite Zlt_Qlt, inject_Z_plus; change (inject_Z 1) with 1%Q; lra). assert (B : z < f + 1) by (rewrite Zlt_Qlt, inject_Z_plus; change (inject_Z 1) with 1%Q; lra). lia. }
  unfold rhe. rewrite F. destruct (Qcompare_spec (q - inject_Z z) (1 # 2)) as [E|E|E]; [|exfalso; lra | exfalso; lra]. destruct (Z.even z) eqn:V; [exact V|]. rewrite Z.even_add, V. reflexivity.
Qed.
Theorem C89_tie : forall q len d t z, (d > 0)%nat -> (q < inject_Z (10 ^ Z.of_nat (len - d - 1)))%Q -> (Qabs q * inject_Z (10 ^ Z.of_nat d) == inject_Z z + (1 # 2))%Q -> fn (Val q) len d = Some t ->
  exists v j, numeral t v /\ (v * inject_Z (10 ^ Z.of_nat d) == inject_Z (2 * j))%Q.
Proof.
  intros q len d t z D H T E. fold (pw d) in *. fold (pw (len - d - 1)) in H. cbn [fn] in E. destruct (Qle_bool (inject_Z (pw (len - d - 1))) q) eqn:B; [apply Qle_bool_iff in B; exfalso; lra|].
  destruct (is_int q) eqn:I; injection E as <-.
  - apply is_int_iff in I. exfalso. rewrite I in T. assert (X : Qabs (inject_Z (Qfloor q)) = inject_Z (Z.abs (Qfloor q))) by reflexivity. rewrite X, <- inject_Z_mult in T.
    assert (Y : (inject_Z (2 * (Z.abs (Qfloor q) * pw d)) == inject_Z (2 * z + 1))%Q) by (rewrite inject_Z_plus, !(inject_Z_mult 2), T; change (inject_Z 2) with 2%Q; change (inject_Z 1) with 1%Q; lra). rewrite inject_Z_injective in Y. lia.
  - pose proof (rhe_tie _ z T) as V. apply Zeven_bool_iff in V. apply Zeven_ex in V. destruct V as (k & K). pose proof (qpw_pos d) as P. destruct (fixed_means len d q) as (v & A & _). exists v, (if Qle_bool 0 q then k else - k). split; [exact A|].
    assert (W : numeral (rjust len (fixed d q)) ((if Qle_bool 0 q then 1 else -1) * (inject_Z (2 * k) / inject_Z (pw d)))%Q) by (rewrite <- K; apply fixed_exact).
    rewrite (numeral_read _ _ A), <- (numeral_read _ _ W). destruct (Qle_bool 0 q); [field; lra|]. replace (2 * - k) with (- (2 * k)) by lia. rewrite inject_Z_opp. field. lra.
Qed.
(** a larger number is shown with len - d - 3 decimals of its mantissa: the relative error is less than half a unit *)
Theorem C89_large : forall q len d t, (d + 3 <= len)%nat -> (inject_Z (10 ^ Z.of_nat (len - d - 1)) <= q)%Q -> fn (Val q) len d = Some t ->
  exists v, numeral t v /\ (Qabs (v - q) <= (1 # 2) / inject_Z (10 ^ Z.of_nat (len - d - 3)) * q)%Q.
Proof.
  intros q len d t L H E. fold (pw (len - d - 1)) in H. cbn [fn] in E. rewrite (proj2 (Qle_bool_iff _ _) H) in E. injection E as <-. apply expo_means. eapply Qle_trans; [|exact H]. change 1%Q with (inject_Z 1). rewrite <- Zle_Qle. pose proof (pw_pos (len - d - 1)). unfold pw in *. lia.
Qed.
(** each number takes exactly its column, as long as it fits: not negative and not just below the limit (above the limit only if d is 3 or more), or negative and small enough for the sign *)
Definition fits (q : Q) (len d : nat) : Prop :=
  (0 <= q /\ (q + (1 # 2) / inject_Z (10 ^ Z.of_nat d) < inject_Z (10 ^ Z.of_nat (len - d - 1)) \/ (inject_Z (10 ^ Z.of_nat (len - d - 1)) <= q /\ q < inject_Z (10 ^ 99) /\ (3 <= d)%nat)))%Q \/
  (q < 0 /\ - q + (1 # 2) / inject_Z (10 ^ Z.of_nat d) < inject_Z (10 ^ Z.of_nat (len - d - 2)))%Q.
Lemma fixed_length : forall d q k, (d > 0)%nat -> (k > 0)%nat -> (Qabs q + (1 # 2) / inject_Z (pw d) < inject_Z (pw k))%Q -> (length (fixed d q) <= k + d + 1 + (if Qle_bool 0 q then 0 else 1))%nat.
Proof.
  intros d q k D K H. unfold fixed. set (m := rhe (Qabs q * inject_Z (pw d))). pose proof (qpw_pos d) as P.
  assert (M : 0 <= m) by (apply rhe_nonneg; apply Qmult_le_0_compat; [apply Qabs_nonneg | lra]).
  assert (U : m < pw k * pw d).
  { pose proof (rhe_near (Qabs q * inject_Z (pw d))) as N. fold m in N. apply Qabs_Qle_condition in N. destruct N as (_ & N). rewrite Zlt_Qlt, inject_Z_mult.
    assert (X : ((Qabs q + (1 # 2) / inject_Z (pw d)) * inject_Z (pw d) < inject_Z (pw k) * inject_Z (pw d))%Q) by (apply Qmult_lt_compat_r; auto). assert (Y : ((Qabs q + (1 # 2) / inject_Z (pw d)) * inject_Z (pw d) == Qabs q * inject_Z (pw d) + (1 # 2))%Q) by (field; lra). rewrite Y in X. lra. }
  destruct (digits_ok (m / pw d)) as (_ & _ & _ & L); [apply Z.div_pos; [auto | apply pw_pos]|]. specialize (L k K ltac:(apply Z.div_lt_upper_bound; [apply pw_pos | lia])).
  rewrite !app_length, map_length, frac_length. destruct d; [lia|]. destruct (Qle_bool 0 q); cbn [length]; lia.
Qed.
Lemma expo_length : forall p q, (p > 0)%nat -> (1 <= q)%Q -> (q < inject_Z (10 ^ 99))%Q -> length (expo p q) = (p + 6)%nat.
Proof.
  intros p q P H B. destruct (expo_parts p q H) as (m & e & -> & M & _ & EE). destruct (expon_ok q H) as (X & _).
  assert (E1 : (expon q < 99)%nat). { destruct (Nat.lt_ge_cases (expon q) 99) as [Y|Y]; [exact Y|]. exfalso. assert (Z : 10 ^ 99 <= pw (expon q)) by (unfold pw; apply Z.pow_le_mono_r; lia). rewrite Zle_Qle in Z. lra. }
  assert (D1 : length (digits (m / pw p)) = 1%nat).
  { destruct (digits_ok (m / pw p)) as (_ & _ & C & L); [apply Z.div_pos; pose proof (pw_pos p); lia|]. rewrite pw_S in M. specialize (L 1%nat ltac:(lia) ltac:(apply Z.div_lt_upper_bound; [apply pw_pos|]; change (pw 1) with 10; lia)). clear - C L. destruct (digits (m / pw p)) as [|z [|z' l]]; [congruence | reflexivity | cbn [length] in L; lia]. }
  assert (D2 : length ((if Nat.ltb e 10 then [dc 0] else []) ++ map dc (digits (Z.of_nat e))) = 2%nat).
  { assert (E2 : (e <= 99)%nat) by lia. clear - E2. do 100 (destruct e as [|e]; [vm_compute; reflexivity|]). exfalso. lia. }
  rewrite !app_length, map_length, D1, frac_length, <- app_length, D2. destruct p; [lia|]. cbn [length]. lia.
Qed.
Theorem C89_column : forall x len d t, (1 <= d)%nat -> (d + 4 <= len)%nat -> (forall q, x = Val q -> fits q len d) -> fn x len d = Some t -> length t = len.
Proof.
  intros x len d t D L F E. destruct x as [| | |q]; cbn [fn] in E.
  - injection E as <-. apply spaces_length.
  - injection E as <-. apply rjust_length. cbn. lia.
  - discriminate.
  - specialize (F q eq_refl). fold (pw d) (pw (len - d - 1)) (pw (len - d - 2)) in F. unfold fits in F. fold (pw d) (pw (len - d - 1)) (pw (len - d - 2)) in F. pose proof (qpw_pos d) as P. assert (H0 : (0 <= (1 # 2) / inject_Z (pw d))%Q) by (apply Qle_shift_div_l; lra).
    assert (MONO : pw (len - d - 1) = 10 * pw (len - d - 2)) by (rewrite <- pw_S; f_equal; lia). pose proof (pw_pos (len - d - 2)) as P2.
    destruct (Qle_bool (inject_Z (pw (len - d - 1))) q) eqn:B.
    + injection E as <-. apply Qle_bool_iff in B. apply rjust_length. assert (Q0 : (0 < inject_Z (pw (len - d - 1)))%Q) by apply qpw_pos. destruct F as [(F1 & [F2|(_ & F2 & F3)])|(F1 & F2)]; [exfalso; lra | | exfalso; lra].
      rewrite expo_length; [lia | lia | | exact F2]. eapply Qle_trans; [|exact B]. change 1%Q with (inject_Z 1). rewrite <- Zle_Qle. pose proof (pw_pos (len - d - 1)). lia.
    + assert (B' : (q < inject_Z (pw (len - d - 1)))%Q) by (apply Qnot_le_lt; intros X; apply Qle_bool_iff in X; congruence). destruct (is_int q) eqn:I; injection E as <-.
      * apply is_int_iff in I. rewrite app_length, spaces_length, rjust_length; [lia|]. unfold str_int. rewrite app_length, map_length. destruct F as [(F1 & _)|(F1 & F2)].
        -- assert (Z1 : 0 <= Qfloor q) by (rewrite Zle_Qle, <- I; exact F1). destruct (Z.ltb_spec (Qfloor q) 0); [lia|]. rewrite Z.abs_eq by lia. destruct (digits_ok (Qfloor q) Z1) as (_ & _ & _ & K). cbn [length]. apply K; [lia|]. rewrite Zlt_Qlt, <- I. exact B'.
        -- assert (Z1 : Qfloor q < 0) by (rewrite Zlt_Qlt, <- I; exact F1). destruct (Z.ltb_spec (Qfloor q) 0); [|lia]. destruct (digits_ok (Z.abs (Qfloor q))) as (_ & _ & _ & K); [lia|]. cbn [length].
           assert (length (digits (Z.abs (Qfloor q))) <= len - d - 2)%nat; [|lia]. apply K; [lia|]. rewrite Z.abs_neq by lia. rewrite Zlt_Qlt, inject_Z_opp, <- I. lra.
      * apply rjust_length. destruct F as [(F1 & [F2|(F2 & _)])|(F1 & F2)]; [| exfalso; lra |].
        -- pose proof (fixed_length d q (len - d - 1) ltac:(lia) ltac:(lia)) as K. rewrite Qabs_pos in K by exact F1. specialize (K F2). rewrite (proj2 (Qle_bool_iff _ _) F1) in K. lia.
        -- pose proof (fixed_length d q (len - d - 2) ltac:(lia) ltac:(lia)) as K. rewrite Qabs_neg in K by lra. specialize (K F2). destruct (Qle_bool 0 q); lia.
Qed.
(** texts take exactly their column; a text that fits is shown completely *)
Theorem C89_pad : forall t n, length (pad t n) = n /\ length (rpad t n) = n /\ ((length t <= n)%nat -> pad t n = t ++ spaces (n - length t) /\ rpad t n = spaces (n - length t) ++ t).
Proof.
  intros t n. assert (A : length (firstn n (ljust n t)) = n) by (apply firstn_length_le; unfold ljust; rewrite app_length, spaces_length; lia). unfold pad, rpad. split; [|split].
  - destruct (Nat.leb_spec n 0); [cbn; lia | exact A].
  - apply firstn_length_le. unfold rjust. rewrite app_length, spaces_length. lia.
  - intros H. split; [destruct (Nat.leb_spec n 0) as [X|X]|].
    + destruct t; [|cbn in H; lia]. assert (n = 0)%nat by lia. subst. reflexivity.
    + unfold ljust. apply firstn_all2. rewrite app_length, spaces_length. lia.
    + unfold rjust. apply firstn_all2. rewrite app_length, spaces_length. lia.
Qed.
(** a printed number has one meaning *)
Theorem C89_meaning : forall t v w, numeral t v -> numeral t w -> (v == w)%Q.
Proof. intros t v w A B. rewrite (numeral_read t v A). symmetry. apply numeral_read. exact B. Qed.
(** ** Cases *)
Definition txt (s : string) : text := list_ascii_of_string s.
Example C89_case : fn (Val (2469 # 20)) 13 3 = Some (txt "      123.450") /\ fits (2469 # 20) 13 3 /\ fn (Val (-7 # 1)) 13 3 = Some (txt "       -7    ") /\ fits (-7 # 1) 13 3 /\
  fn (Val (24691357805 # 2)) 13 3 = Some (txt "1.2345679e+10") /\ fits (24691357805 # 2) 13 3 /\ fn PInf 13 3 = Some (txt "          inf") /\ fn Nan 6 1 = Some (txt "      ").
Proof.
  split; [vm_compute; reflexivity|]. split; [left; split; [vm_compute; congruence | left; vm_compute; reflexivity]|]. split; [vm_compute; reflexivity|]. split; [right; split; vm_compute; reflexivity|].
  split; [vm_compute; reflexivity|]. split; [|split; vm_compute; reflexivity]. left. split; [vm_compute; congruence|]. right. split; [vm_compute; congruence|]. split; [vm_compute; reflexivity | lia].
Qed.
(** 0.0625 is halfway 0.062 and 0.063, 0.1875 halfway 0.187 and 0.188 *)
Example C89_case_tie : fn (Val (1 # 16)) 13 3 = Some (txt "        0.062") /\ fn (Val (3 # 16)) 13 3 = Some (txt "        0.188") /\ (Qabs (1 # 16) * inject_Z (10 ^ 3) == inject_Z 62 + (1 # 2))%Q.
Proof. vm_compute. auto. Qed.
(** a mantissa that is rounded up to 10: 9999999999.6 becomes 1.0000000e+10 *)
Example C89_case_carry : fn (Val (99999999996 # 10)) 13 3 = Some (txt "1.0000000e+10") /\ numeral (txt "1.0000000e+10") (inject_Z (10 ^ 10)).
Proof.
  split; [vm_compute; reflexivity|]. exists 0%nat, 0%nat, false, [1], [0; 0; 0; 0; 0; 0; 0], [1; 0]. split; [repeat constructor; lia|]. split; [repeat constructor; lia|]. split; [repeat constructor; lia|]. split; [discriminate|]. split; vm_compute; reflexivity.
Qed.
(** *** Refuted
    the number of entries in a value table is printed with rpad(str(count), 7) (2619): of 12345678 the last digit is dropped *)
Theorem C89_count_refuted : exists count v, numeral (rpad (str_int count) 7) v /\ ~ (v == inject_Z count)%Q.
Proof.
  exists 12345678, (inject_Z 1234567). split; [|vm_compute; discriminate]. exists 0%nat, 0%nat, false, [1; 2; 3; 4; 5; 6; 7], [], []. split; [repeat constructor; lia|]. split; [constructor|]. split; [constructor|]. split; [discriminate|]. split; vm_compute; reflexivity.
Qed.
(** the column is exceeded by 999999999.9996, that is rounded to 1000000000.000, by -123456789.5, by 10**100, and, with two decimals or less, by each number in e notation *)
Theorem C89_column_refuted : forall x, In x [(Val (9999999999996 # 10000), 13%nat, 3%nat); (Val (-1234567895 # 10), 13%nat, 3%nat); (Val (inject_Z (10 ^ 100)), 13%nat, 3%nat); (Val (20000 # 1), 6%nat, 1%nat)] ->
  exists t, fn (fst (fst x)) (snd (fst x)) (snd x) = Some t /\ (snd (fst x) < length t)%nat.
Proof.
  intros x I. repeat destruct I as [<-|I]; [exists (txt "1000000000.000") | exists (txt "-123456789.500") | exists (txt "1.0000000e+100") | exists (txt "2.00e+04") | destruct I]; (split; [vm_compute; reflexivity | cbn; lia]).
Qed.
(** -inf cannot be printed: OverflowError *)
Theorem C89_inf_refuted : exists x, forall len d, fn x len d = None.
Proof. exists MInf. reflexivity. Qed.
Print Assumptions C89_value. Print Assumptions C89_tie. Print Assumptions C89_large. Print Assumptions C89_column. Print Assumptions C89_pad. Print Assumptions C89_meaning. Print Assumptions C89_count_refuted. Print Assumptions C89_column_refuted. Print Assumptions C89_inf_refuted.
