(** C87: color specifications mean the documented colours. *)
From Coq Require Import String Ascii List ZArith QArith Bool Lia Lra Lqa.
From Verif Require Import Colour.
Import ListNotations.
Open Scope string_scope.
Open Scope Z_scope.

(** ** Notation of colours *)
Definition byte (x : Z) : Prop := 0 <= x <= 255.
Definition rgba (r g b a : Z) : list cspec := [CNum r; CNum g; CNum b; CNum a].
(** a number as two hexadecimal digits, in capitals or not *)
Definition hexdigits (capitals : bool) : list ascii := list_ascii_of_string (if capitals then "0123456789ABCDEF" else "0123456789abcdef").
Definition hexchar (capitals : bool) (x : Z) : ascii := nth (Z.to_nat x) (hexdigits capitals) "0"%char.
Definition hh (capitals : bool) (x : Z) : string := String (hexchar capitals (x / 16)) (String (hexchar capitals (x mod 16)) "").
(** a name may be written with capitals and spaces *)
Definition letters : list (ascii * ascii) := combine (list_ascii_of_string "ABCDEFGHIJKLMNOPQRSTUVWXYZ") (list_ascii_of_string "abcdefghijklmnopqrstuvwxyz").
Inductive spelled : string -> string -> Prop :=
| sp_end : spelled "" ""
| sp_space : forall s t, spelled s t -> spelled (String " " s) t
| sp_char : forall c s t, spelled s t -> spelled (String c s) (String c t)
| sp_capital : forall c d s t, In (c, d) letters -> spelled s t -> spelled (String c s) (String d t).
Definition has (c : ascii) (s : string) : Prop := In c (list_ascii_of_string s).

(** ** Proofs *)
Lemma digit_hex : forall u x, 0 <= x < 16 -> digit (hexchar u x) = Some x.
Proof.
  intros u x H. assert (E : x = 0 \/ x = 1 \/ x = 2 \/ x = 3 \/ x = 4 \/ x = 5 \/ x = 6 \/ x = 7 \/ x = 8 \/ x = 9 \/ x = 10 \/ x = 11 \/ x = 12 \/ x = 13 \/ x = 14 \/ x = 15) by lia.
  repeat (destruct E as [->|E]; [destruct u; reflexivity|]). subst x. destruct u; reflexivity.
Qed.
Lemma int16_hh : forall u x, byte x -> int16 (hexchar u (x / 16)) (hexchar u (x mod 16)) = Ok x.
Proof.
  intros u x B. unfold byte in B. unfold int16. rewrite (digit_hex u (x / 16)), (digit_hex u (x mod 16)).
  - f_equal. symmetry. apply Z.div_mod. lia.
  - apply Z.mod_pos_bound. lia.
  - split; [apply Z.div_pos; lia | apply Z.div_lt_upper_bound; lia].
Qed.
Lemma of_hex6 : forall u v w r g b, byte r -> byte g -> byte b -> of_hex (String "#" (hh u r ++ hh v g ++ hh w b)) = Ok (rgba r g b 255).
Proof. intros u v w r g b R G B. unfold of_hex, hh. cbn [list_ascii_of_string append]. rewrite !int16_hh by auto. reflexivity. Qed.
Lemma of_hex8 : forall u v w x r g b a, byte r -> byte g -> byte b -> byte a -> of_hex (String "#" (hh u r ++ hh v g ++ hh w b ++ hh x a)) = Ok (rgba r g b a).
Proof. intros u v w x r g b a R G B A. unfold of_hex, hh. cbn [list_ascii_of_string append]. rewrite !int16_hh by auto. reflexivity. Qed.
Lemma totuple_hash : forall n e s, totuple (S n) e (CStr (String "#" s)) = of_hex (String "#" s).
Proof. reflexivity. Qed.
Lemma no_hash_match : forall (A : Type) c (x : A) (y : A), c <> "#"%char -> (match c with "#"%char => x | _ => y end) = y.
Proof. intros A c x y N. destruct c as [[] [] [] [] [] [] [] []]; try reflexivity. destruct N. reflexivity. Qed.
Definition named (n : nat) (e : colors) (s : string) : res (list cspec) :=
  let (name, alpha) := match split s with (h, [a]) => (h, a) | _ => (s, "FF") end in
  match lookup (norm name) colornames with
  | Some hex => totuple n e (CStr (if Nat.eqb (String.length hex) 7 then hex ++ alpha else hex))
  | None => Bad
  end.
Lemma totuple_named : forall n e s, s <> "fg" -> s <> "bg" -> (forall t, s <> String "#" t) -> totuple (S n) e (CStr s) = named n e s.
Proof.
  intros n e s F B H. cbn [totuple]. apply String.eqb_neq in F, B. rewrite F, B. cbn [bind]. destruct s as [|c s]; [reflexivity|].
  unfold named. apply no_hash_match. intros ->. apply (H s). reflexivity.
Qed.
Lemma not_has : forall c d s, ~ has c (String d s) -> d <> c /\ ~ has c s.
Proof. intros c d s H. split; [intros ->; apply H; left; reflexivity | intros X; apply H; right; exact X]. Qed.
Lemma split_none : forall s, ~ has "#" s -> split s = (s, []).
Proof.
  induction s as [|c s IH]; intros H; [reflexivity|]. apply not_has in H. destruct H as (A & B). cbn [split]. rewrite (IH B).
  apply Ascii.eqb_neq in A. rewrite A. reflexivity.
Qed.
Lemma split_one : forall s a, ~ has "#" s -> ~ has "#" a -> split (s ++ String "#" a) = (s, [a]).
Proof.
  induction s as [|c s IH]; intros a H A; cbn [append split].
  - rewrite (split_none a A). reflexivity.
  - apply not_has in H. destruct H as (C & D). rewrite (IH a D A). apply Ascii.eqb_neq in C. rewrite C. reflexivity.
Qed.
Lemma letters_ok : forall c d, In (c, d) letters -> lowc c = lowc d /\ c <> "#"%char /\ d <> "#"%char /\ c <> " "%char /\ d <> " "%char.
Proof.
  intros c d H. cbn in H. repeat (destruct H as [H|H]; [injection H as <- <-; repeat split; discriminate|]). destruct H.
Qed.
Lemma norm_spelled : forall s t, spelled s t -> norm s = norm t.
Proof.
  intros s t H. induction H as [|s t H IH|c s t H IH|c d s t L H IH]; auto; cbn [norm]; [rewrite IH; reflexivity|].
  destruct (letters_ok c d L) as (A & _ & _ & B & C). apply Ascii.eqb_neq in B, C. rewrite B, C, A, IH. reflexivity.
Qed.
Lemma spelled_hash : forall s t, spelled s t -> ~ has "#" t -> ~ has "#" s.
Proof.
  intros s t H. induction H as [|s t H IH|c s t H IH|c d s t L H IH]; auto; intros N.
  - intros [X|X]; [discriminate X | apply IH; auto].
  - apply not_has in N. destruct N as (A & B). intros [X|X]; [auto | apply IH; auto].
  - apply not_has in N. destruct N as (A & B). destruct (letters_ok c d L) as (_ & C & _). intros [X|X]; [auto | apply IH; auto].
Qed.
(** what holds for all names of the table *)
Definition digits_only (s : string) : bool := forallb (fun c => match digit c with Some _ => true | None => false end) (list_ascii_of_string s).
Definition entry_ok (x : string * string) : bool :=
  let (name, hex) := x in
  String.eqb (norm name) name && negb (existsb (Ascii.eqb "#") (list_ascii_of_string name)) &&
  match lookup name colornames with Some h => String.eqb h hex | None => false end &&
  match hex with String c s => Ascii.eqb c "#" && digits_only s && (Nat.eqb (String.length s) 6 || Nat.eqb (String.length s) 8) | _ => false end.
Lemma table_ok : forallb entry_ok colornames = true. Proof. vm_compute. reflexivity. Qed.
Lemma entry : forall name hex, In (name, hex) colornames ->
  norm name = name /\ ~ has "#" name /\ lookup name colornames = Some hex /\
  exists s, hex = String "#" s /\ digits_only s = true /\ (String.length s = 6%nat \/ String.length s = 8%nat).
Proof.
  intros name hex H. pose proof table_ok as T. rewrite forallb_forall in T. specialize (T _ H). unfold entry_ok in T. rewrite !andb_true_iff in T. destruct T as (((A & B) & C) & D).
  apply String.eqb_eq in A. split; auto. split.
  - intros X. apply negb_true_iff in B. assert (Y : existsb (Ascii.eqb "#") (list_ascii_of_string name) = true) by (apply existsb_exists; exists "#"%char; split; [exact X | apply Ascii.eqb_refl]). congruence.
  - split; [destruct (lookup name colornames); [apply String.eqb_eq in C; subst; reflexivity | discriminate C]|].
    destruct hex as [|c s]; [discriminate D|]. rewrite !andb_true_iff, orb_true_iff, !Nat.eqb_eq in D. destruct D as ((D & E) & F). apply Ascii.eqb_eq in D. subst c. exists s. auto.
Qed.
Lemma no_ref : forall s name hex, In (name, hex) colornames -> spelled s name -> s <> "fg" /\ s <> "bg".
Proof.
  intros s name hex I H. destruct (entry name hex I) as (N & _ & L & _). apply norm_spelled in H. rewrite N in H. split; intros ->; rewrite <- H in L; vm_compute in L; discriminate L.
Qed.
Lemma no_hash_start : forall s, ~ has "#" s -> forall t, s <> String "#" t.
Proof. intros s H t ->. apply H. left. reflexivity. Qed.
Lemma named_plain : forall n e s name hex, In (name, hex) colornames -> spelled s name ->
  totuple (S n) e (CStr s) = totuple n e (CStr (if Nat.eqb (String.length hex) 7 then hex ++ "FF" else hex)).
Proof.
  intros n e s name hex I H. destruct (entry name hex I) as (N & HH & L & _). destruct (no_ref s name hex I H) as (F & B). pose proof (spelled_hash s name H HH) as SH.
  rewrite totuple_named by (auto; apply no_hash_start; auto). unfold named. rewrite (split_none s SH), (norm_spelled s name H), N, L. reflexivity.
Qed.
Lemma app_hash : forall s t u, s ++ String "#" t <> "fg" /\ s ++ String "#" t <> "bg" /\ (~ has "#" s -> s <> "" -> s ++ String "#" t <> String "#" u).
Proof.
  intros s t u. split; [|split].
  - intros E. destruct s as [|a [|b [|c s]]]; cbn in E; try discriminate E.
  - intros E. destruct s as [|a [|b [|c s]]]; cbn in E; try discriminate E.
  - intros H N E. destruct s as [|c s]; [auto|]. cbn in E. injection E as -> _. apply H. left. reflexivity.
Qed.
Lemma named_alpha : forall n e s a name hex, In (name, hex) colornames -> spelled s name -> s <> "" -> ~ has "#" a ->
  totuple (S n) e (CStr (s ++ String "#" a)) = totuple n e (CStr (if Nat.eqb (String.length hex) 7 then hex ++ a else hex)).
Proof.
  intros n e s a name hex I H SE A. destruct (entry name hex I) as (N & HH & L & _). pose proof (spelled_hash s name H HH) as SH.
  rewrite totuple_named; [|apply (app_hash s a "") | apply (app_hash s a "") | intros t; apply (app_hash s a t); auto]. unfold named. rewrite (split_one s a SH A), (norm_spelled s name H), N, L. reflexivity.
Qed.
Lemma hh_hash : forall u x, byte x -> ~ has "#" (hh u x).
Proof.
  intros u x B [E|[E|[]]]; [pose proof (digit_hex u (x / 16) ltac:(unfold byte in B; split; [apply Z.div_pos; lia | apply Z.div_lt_upper_bound; lia])) as D
    | pose proof (digit_hex u (x mod 16) ltac:(apply Z.mod_pos_bound; lia)) as D]; rewrite E in D; vm_compute in D; discriminate D.
Qed.
Lemma digit_range : forall c x, digit c = Some x -> 0 <= x < 16.
Proof.
  intros c x H. unfold digit in H. remember (Z.of_N (N_of_ascii c)) as n.
  destruct ((48 <=? n) && (n <=? 57)) eqn:A; [injection H as <-; apply andb_true_iff in A; lia|].
  destruct ((65 <=? n) && (n <=? 70)) eqn:B; [injection H as <-; apply andb_true_iff in B; lia|].
  destruct ((97 <=? n) && (n <=? 102)) eqn:C; [injection H as <-; apply andb_true_iff in C; lia | discriminate H].
Qed.
Lemma int16_byte : forall a b x, a <> "-"%char -> int16 a b = Ok x -> byte x.
Proof.
  intros a b x N H. unfold int16 in H. unfold byte. destruct (digit a) as [p|] eqn:A, (digit b) as [q|] eqn:B; try discriminate H.
  - apply digit_range in A, B. assert (X : x = 16 * p + q) by congruence. lia.
  - destruct (space b); [|discriminate H]. injection H as <-. apply digit_range in A. lia.
  - apply digit_range in B. apply Ascii.eqb_neq in N. rewrite N in H. destruct (space a); [injection H as <-; lia|]. destruct (Ascii.eqb a "+"); [injection H as <-; lia | discriminate H].
Qed.
Lemma of_hex_ok : forall s l, of_hex s = Ok l -> exists r g b a, l = rgba r g b a /\ (~ has "-" s -> byte r /\ byte g /\ byte b /\ byte a).
Proof.
  intros s l H. unfold of_hex, has in *. destruct (list_ascii_of_string s) as [|h [|a [|b [|c [|d [|e [|f [|g [|i [|? ?]]]]]]]]]]; try discriminate H.
  - destruct (int16 a b) as [r| |] eqn:A; try discriminate H. cbn [bind] in H. destruct (int16 c d) as [gr| |] eqn:B; try discriminate H. cbn [bind] in H.
    destruct (int16 e f) as [bl| |] eqn:C; try discriminate H. cbn [bind] in H. injection H as <-. exists r, gr, bl, 255. split; auto.
    intros N. cbn [In] in N. split; [|split; [|split; [|unfold byte; lia]]]; [apply (int16_byte a b) | apply (int16_byte c d) | apply (int16_byte e f)]; auto; intros ->; apply N; auto 10.
  - destruct (int16 a b) as [r| |] eqn:A; try discriminate H. cbn [bind] in H. destruct (int16 c d) as [gr| |] eqn:B; try discriminate H. cbn [bind] in H.
    destruct (int16 e f) as [bl| |] eqn:C; try discriminate H. cbn [bind] in H. destruct (int16 g i) as [al| |] eqn:D; try discriminate H. cbn [bind] in H. injection H as <-. exists r, gr, bl, al. split; auto.
    intros N. cbn [In] in N. split; [|split; [|split]]; [apply (int16_byte a b) | apply (int16_byte c d) | apply (int16_byte e f) | apply (int16_byte g i)]; auto; intros ->; apply N; auto 12.
Qed.
Lemma digits_hex : forall s, digits_only s = true -> String.length s = 6%nat \/ String.length s = 8%nat -> exists l, of_hex (String "#" s) = Ok l.
Proof.
  intros s D L. unfold of_hex, digits_only in *. cbn [list_ascii_of_string].
  assert (LL : length (list_ascii_of_string s) = String.length s) by (clear; induction s; cbn; auto). rewrite <- LL in L. clear LL.
  destruct (list_ascii_of_string s) as [|a [|b [|c [|d [|e [|f [|g [|i [|? ?]]]]]]]]]; cbn [length] in L; try lia; cbn [forallb] in D; unfold int16;
    (destruct (digit a); [|discriminate D]); (destruct (digit b); [|discriminate D]); (destruct (digit c); [|discriminate D]); (destruct (digit d); [|discriminate D]);
    (destruct (digit e); [|discriminate D]); (destruct (digit f); [|discriminate D]); cbn [bind]; [eexists; reflexivity|].
  destruct (digit g); [|discriminate D]. destruct (digit i); [|discriminate D]. cbn [bind]. eexists. reflexivity.
Qed.
Lemma digits_minus : forall s, digits_only s = true -> ~ has "-" s.
Proof. intros s D H. unfold digits_only in D. rewrite forallb_forall in D. specialize (D _ H). vm_compute in D. discriminate D. Qed.
Lemma has_app : forall c s t, has c (s ++ t) -> has c s \/ has c t.
Proof. intros c s t. induction s as [|d s IH]; cbn; intros H; auto. destruct H as [->|H]; [left; left; reflexivity|]. destruct (IH H) as [X|X]; [left; right; exact X | right; exact X]. Qed.
Lemma split_has : forall c s h t, split s = (h, t) -> (has c h \/ exists x, In x t /\ has c x) -> has c s.
Proof.
  intros c. induction s as [|d s IH]; intros h t E H; cbn [split] in E.
  - injection E as <- <-. destruct H as [[]|(x & [] & _)].
  - destruct (split s) as (h0, t0). specialize (IH h0 t0 eq_refl). destruct (Ascii.eqb d "#") eqn:D.
    + injection E as <- <-. right. apply IH. destruct H as [[]|(x & [<-|X] & Y)]; [left; exact Y | right; exists x; auto].
    + injection E as <- <-. destruct H as [[->|X]|X]; [left; reflexivity | right; apply IH; left; exact X | right; apply IH; right; exact X].
Qed.
Lemma lookup_in : forall k l v, lookup k l = Some v -> exists k', In (k', v) l.
Proof. induction l as [|(a, w) l IH]; intros v H; [discriminate H|]. cbn in H. destruct (String.eqb a k); [injection H as <-; exists a; left; reflexivity | destruct (IH v H) as (k' & I); exists k'; right; auto]. Qed.
Lemma named_cases : forall n e s l, named n e s = Ok l -> exists hex alpha, (exists k, In (k, hex) colornames) /\ (has "-" alpha -> has "-" s) /\
  totuple n e (CStr (if Nat.eqb (String.length hex) 7 then hex ++ alpha else hex)) = Ok l.
Proof.
  intros n e s l H. unfold named in H. destruct (split s) as (h, t) eqn:SP.
  assert (X : exists name alpha, (has "-" alpha -> has "-" s) /\ (match lookup (norm name) colornames with Some hex => totuple n e (CStr (if Nat.eqb (String.length hex) 7 then hex ++ alpha else hex)) | None => Bad end) = Ok l).
  { destruct t as [|a [|? ?]]; [exists s, "FF"; split; [intros [X|[X|[]]]; discriminate X | exact H] | exists h, a; split; [intros X; apply (split_has "-" s h [a] SP); right; exists a; split; [left; reflexivity | exact X] | exact H]
      | exists s, "FF"; split; [intros [X|[X|[]]]; discriminate X | exact H]]. }
  destruct X as (name & alpha & A & B). destruct (lookup (norm name) colornames) as [hex|] eqn:L; [|discriminate B]. exists hex, alpha. split; [apply lookup_in in L; exact L | split; auto].
Qed.
Lemma string_ok : forall n e s l, s <> "fg" -> s <> "bg" -> totuple n e (CStr s) = Ok l -> exists r g b a, l = rgba r g b a /\ (~ has "-" s -> byte r /\ byte g /\ byte b /\ byte a).
Proof.
  intros n e s l F B H. destruct n as [|n]; [discriminate H|].
  assert (D : (exists t, s = String "#" t) \/ forall t, s <> String "#" t) by (destruct s as [|c s]; [right; discriminate | destruct (ascii_dec c "#") as [->|N]; [left; exists s; reflexivity | right; intros t E; injection E as -> _; auto]]).
  destruct D as [(t & ->)|D]; [rewrite totuple_hash in H; apply of_hex_ok; exact H|]. rewrite totuple_named in H by auto. destruct (named_cases n e s l H) as (hex & alpha & (k & I) & M & T).
  destruct (entry k hex I) as (_ & _ & _ & t & -> & DG & _). destruct n as [|n]; [discriminate T|].
  assert (E : exists w, (if Nat.eqb (String.length (String "#" t)) 7 then String "#" t ++ alpha else String "#" t) = String "#" w /\ (has "-" (String "#" w) -> has "-" s)).
  { destruct (Nat.eqb (String.length (String "#" t)) 7).
    - exists (t ++ alpha). split; [reflexivity|]. intros [X|X]; [discriminate X|]. apply has_app in X. destruct X as [X|X]; [destruct (digits_minus t DG X) | auto].
    - exists t. split; [reflexivity|]. intros [X|X]; [discriminate X | destruct (digits_minus t DG X)]. }
  destruct E as (w & E & Y). rewrite E, totuple_hash in T. destruct (of_hex_ok _ _ T) as (r & g & b & a & Z & Q). exists r, g, b, a. split; auto.
Qed.

(** ** Theorems *)
(** #rrggbb and #rrggbbaa *)
Theorem C87_hex : forall n e u v w x r g b a, byte r -> byte g -> byte b -> byte a ->
  totuple (S n) e (CStr ("#" ++ hh u r ++ hh v g ++ hh w b)) = Ok (rgba r g b 255) /\
  totuple (S n) e (CStr ("#" ++ hh u r ++ hh v g ++ hh w b ++ hh x a)) = Ok (rgba r g b a).
Proof. intros. split; cbn [append]; rewrite totuple_hash; [apply of_hex6 | apply of_hex8]; auto. Qed.
(** names, in any spelling, with and without #aa *)
Theorem C87_name : forall n e s name u v w x r g b a, byte r -> byte g -> byte b -> byte a -> In (name, "#" ++ hh u r ++ hh v g ++ hh w b) colornames -> spelled s name ->
  totuple (S (S n)) e (CStr s) = Ok (rgba r g b 255) /\ (s <> "" -> totuple (S (S n)) e (CStr (s ++ "#" ++ hh x a)) = Ok (rgba r g b a)).
Proof.
  intros n e s name u v w x r g b a R G B A I H.
  assert (L : Nat.eqb (String.length ("#" ++ hh u r ++ hh v g ++ hh w b)) 7 = true) by reflexivity.
  assert (AS : forall t, ("#" ++ hh u r ++ hh v g ++ hh w b) ++ t = String "#" (hh u r ++ hh v g ++ hh w b ++ t)) by reflexivity. split.
  - rewrite (named_plain (S n) e s name _ I H), L, AS, totuple_hash. change "FF" with (hh true 255). apply of_hex8; auto. unfold byte; lia.
  - intros SE. cbn [append]. rewrite (named_alpha (S n) e s (hh x a) name _ I H SE (hh_hash x a A)). change (String "#" (hh u r ++ hh v g ++ hh w b)) with ("#" ++ hh u r ++ hh v g ++ hh w b). rewrite L, AS, totuple_hash. apply of_hex8; auto.
Qed.
(** all names of the table have a colour *)
Theorem C87_every : forall n e s name hex, In (name, hex) colornames -> spelled s name -> exists r g b a, byte r /\ byte g /\ byte b /\ byte a /\ totuple (S (S n)) e (CStr s) = Ok (rgba r g b a).
Proof.
  intros n e s name hex I H. destruct (entry name hex I) as (_ & _ & _ & t & -> & D & L).
  assert (E : exists w, (if Nat.eqb (String.length (String "#" t)) 7 then String "#" t ++ "FF" else String "#" t) = String "#" w /\ digits_only w = true /\ (String.length w = 6%nat \/ String.length w = 8%nat)).
  { cbn [String.length]. destruct (Nat.eqb (S (String.length t)) 7) eqn:Q.
    - exists (t ++ "FF"). split; [reflexivity|]. apply Nat.eqb_eq in Q. injection Q as Q. clear - D Q. split; [|right].
      + unfold digits_only in *. assert (X : forall s t, list_ascii_of_string (s ++ t) = (list_ascii_of_string s ++ list_ascii_of_string t)%list) by (induction s; intros; cbn; [|f_equal]; auto). rewrite X, forallb_app, D. reflexivity.
      + assert (X : forall s t, String.length (s ++ t) = (String.length s + String.length t)%nat) by (induction s; intros; cbn; auto). rewrite X, Q. reflexivity.
    - exists t. auto. }
  destruct E as (w & E & DW & LW). destruct (digits_hex w DW LW) as (l & HL). destruct (of_hex_ok _ _ HL) as (r & g & b & a & -> & BB).
  destruct BB as (R & G & B & A); [intros [X|X]; [discriminate X | apply (digits_minus w DW X)]|]. exists r, g, b, a. repeat split; try apply R; try apply G; try apply B; try apply A.
  rewrite (named_plain (S n) e s name _ I H), E, totuple_hash. exact HL.
Qed.
(** a result has four components, and a text without minus gives numbers from 0 to 255 *)
Lemma tup_ok : forall n e l m, (forall c k, totuple n e c = Ok k -> length k = 4%nat) -> totuple (S n) e (CTup l) = Ok m -> length m = 4%nat.
Proof.
  intros n e l m IH H. cbn [totuple bind] in H. destruct l as [|a [|b [|c [|d [|? ?]]]]]; try discriminate H; try (injection H as <-; reflexivity).
  destruct (totuple n e a) as [[|x [|y [|z t]]]| |]; try discriminate H. injection H as <-. reflexivity.
Qed.
Theorem C87_four : forall n e c l, totuple n e c = Ok l -> length l = 4%nat.
Proof.
  induction n as [|n IH]; intros e c l H; [discriminate H|]. destruct c as [|z|s|m]; [|discriminate H| |apply (tup_ok n e m l); auto; intros c k; apply IH].
  - change (totuple (S n) e CNone) with (totuple (S n) e (CStr "")) in H. destruct (string_ok (S n) e "" l ltac:(discriminate) ltac:(discriminate) H) as (r & g & b & a & -> & _). reflexivity.
  - destruct (string_dec s "fg") as [->|F]; [|destruct (string_dec s "bg") as [->|B]].
    + cbn [totuple bind String.eqb Ascii.eqb Bool.eqb] in H. destruct (totuple n e (foreground e)) as [k| |] eqn:T; try discriminate H. cbn [bind] in H. apply (tup_ok n e k l); auto. intros c j; apply IH.
    + cbn [totuple bind String.eqb Ascii.eqb Bool.eqb] in H. destruct (totuple n e (background e)) as [k| |] eqn:T; try discriminate H. cbn [bind] in H. apply (tup_ok n e k l); auto. intros c j; apply IH.
    + destruct (string_ok (S n) e s l F B H) as (r & g & b & a & -> & _). reflexivity.
Qed.
Theorem C87_range : forall n e s l, s <> "fg" -> s <> "bg" -> ~ has "-" s -> totuple n e (CStr s) = Ok l -> exists r g b a, l = rgba r g b a /\ byte r /\ byte g /\ byte b /\ byte a.
Proof. intros n e s l F B M H. destruct (string_ok n e s l F B H) as (r & g & b & a & E & X). exists r, g, b, a. split; auto. Qed.
(** fg and bg stand for the colours of the environment; a pair replaces the alpha *)
Theorem C87_reference : forall n e l, (totuple n e (foreground e) = Ok l -> totuple (S n) e (CStr "fg") = Ok l) /\ (totuple n e (background e) = Ok l -> totuple (S n) e (CStr "bg") = Ok l).
Proof.
  intros n e l. split; intros H; pose proof (C87_four n e _ l H) as L; cbn [totuple bind String.eqb Ascii.eqb Bool.eqb]; rewrite H; cbn [bind]; destruct l as [|a [|b [|c [|d [|? ?]]]]]; try discriminate L; reflexivity.
Qed.
Theorem C87_pair : forall n e c alpha x y z a, totuple n e c = Ok [x; y; z; a] -> totuple (S n) e (CTup [c; alpha]) = Ok [x; y; z; alpha].
Proof. intros n e c alpha x y z a H. cbn [totuple bind]. rewrite H. reflexivity. Qed.
(** violated: signs are accepted *)
Theorem C87_sign_refuted : exists n e s l, totuple n e (CStr s) = Ok l /\ s = "#-1-1-f" /\ l = rgba (-1) (-1) (-15) 255.
Proof. exists 1%nat, (mkColors (CStr "black") (CStr "white")), "#-1-1-f", (rgba (-1) (-1) (-15) 255). repeat split. Qed.
(** violated: bg is refused as background, but a pair with bg is not; then bg has no colour *)
Theorem C87_self_refuted : exists e b fg e', forbidden b = false /\ set_colors 5 e (Some b) (Some fg) = Ok e' /\ forall n, totuple n e' (CStr "bg") = Deep.
Proof.
  exists (mkColors (CStr "black") (CStr "white")), (CTup [CStr "bg"; CNum 128]), (CStr "red"), (mkColors (CStr "red") (CTup [CStr "bg"; CNum 128])). split; [reflexivity|]. split; [reflexivity|].
  intros n. induction n as [n IH] using lt_wf_ind. destruct n as [|n]; [reflexivity|]. cbn [totuple bind String.eqb Ascii.eqb Bool.eqb background]. destruct n as [|n]; [reflexivity|].
  cbn [totuple bind]. destruct n as [|n]; [reflexivity|]. rewrite (IH (S n)) by lia. reflexivity.
Qed.

(** ** Interpolation *)
Lemma trunc_mono : forall p q : Q, (p <= q)%Q -> trunc p <= trunc q.
Proof.
  intros [a b] [c d] H. unfold Qle in H. cbn [Qnum Qden] in H. unfold trunc. cbn [Qnum Qden].
  rewrite <- (Z.quot_mul_cancel_r a (Zpos b) (Zpos d)), <- (Z.quot_mul_cancel_r c (Zpos d) (Zpos b)) by lia. rewrite (Z.mul_comm (Zpos d) (Zpos b)). apply Z.quot_le_mono; lia.
Qed.
Lemma trunc_int : forall z, trunc (inject_Z z) = z.
Proof. intros z. unfold trunc, inject_Z. cbn [Qnum Qden]. apply Z.quot_1_r. Qed.
Lemma trunc_floor : forall q : Q, (0 <= q)%Q -> (inject_Z (trunc q) <= q)%Q /\ (q < inject_Z (trunc q + 1))%Q.
Proof.
  intros [a b] H. unfold Qle in H. cbn [Qnum Qden] in H. unfold trunc, Qle, Qlt, inject_Z. cbn [Qnum Qden].
  rewrite Z.quot_div_nonneg by lia. pose proof (Z.div_mod a (Zpos b)). pose proof (Z.mod_pos_bound a (Zpos b)). nia.
Qed.
Lemma fade_between : forall p a b, (0 <= p)%Q -> (p <= 1)%Q -> Z.min a b <= fade p a b <= Z.max a b.
Proof.
  intros p a b P0 P1. unfold fade. destruct (a =? b) eqn:E; [apply Z.eqb_eq in E; lia|]. clear E.
  assert (LO : (inject_Z (Z.min a b) <= (1 - p) * inject_Z a + p * inject_Z b)%Q).
  { assert (A : (inject_Z (Z.min a b) <= inject_Z a)%Q) by (rewrite <- Zle_Qle; lia). assert (B : (inject_Z (Z.min a b) <= inject_Z b)%Q) by (rewrite <- Zle_Qle; lia). nra. }
  assert (HI : ((1 - p) * inject_Z a + p * inject_Z b <= inject_Z (Z.max a b))%Q).
  { assert (A : (inject_Z a <= inject_Z (Z.max a b))%Q) by (rewrite <- Zle_Qle; lia). assert (B : (inject_Z b <= inject_Z (Z.max a b))%Q) by (rewrite <- Zle_Qle; lia). nra. }
  apply trunc_mono in LO, HI. rewrite trunc_int in LO, HI. lia.
Qed.
Lemma numbers_rgba : forall r g b a, numbers (rgba r g b a) = Some [r; g; b; a]. Proof. reflexivity. Qed.
Lemma interpolates : forall n e t t0 t1 v0 v1 r g b a r' g' b' a', v0 <> v1 -> ~ (t0 == t1)%Q -> totuple n e v0 = Ok (rgba r g b a) -> totuple n e v1 = Ok (rgba r' g' b' a') ->
  colorinterpolate n e t t0 (Some t1) v0 v1 = Ok (CTup (map CNum (interpolate t t0 t1 [r; g; b; a] [r'; g'; b'; a']))) \/ ceq v0 v1 = true.
Proof.
  intros n e t t0 t1 v0 v1 r g b a r' g' b' a' N T A B. unfold colorinterpolate. destruct (ceq v0 v1) eqn:C; [right; reflexivity|]. left.
  destruct (Qeq_bool t0 t1) eqn:E; [apply Qeq_bool_iff in E; contradiction|]. rewrite A, B. cbn [bind]. rewrite !numbers_rgba. reflexivity.
Qed.
Lemma ceq_eq : forall a b, ceq a b = true -> a = b.
Proof.
  fix IH 1. intros a b H. destruct a as [|x|s|l], b as [|y|t|m]; try discriminate H; try reflexivity.
  - f_equal. apply Z.eqb_eq. exact H.
  - f_equal. apply String.eqb_eq. exact H.
  - f_equal. cbn [ceq] in H. revert m H. induction l as [|a l IL]; intros [|b m] H; try discriminate H; try reflexivity. apply andb_true_iff in H. destruct H as (P & Q). f_equal; [apply IH; exact P | apply IL; exact Q].
Qed.
Lemma interpolate_cases : forall t t0 t1 v0 v1, (t0 < t1)%Q ->
  interpolate t t0 t1 v0 v1 = if Qle_bool t t0 then v0 else if Qle_bool t1 t then v1 else zip (fade ((t - t0) / (t1 - t0))%Q) v0 v1.
Proof.
  intros t t0 t1 v0 v1 L. unfold interpolate. destruct (Qlt_le_dec t1 t0) as [X|X]; [lra|]. destruct (Qeq_bool t0 t1) eqn:E; [apply Qeq_bool_iff in E; lra | reflexivity].
Qed.
Lemma part : forall t t0 t1 : Q, (t0 < t)%Q -> (t < t1)%Q -> (0 <= (t - t0) / (t1 - t0))%Q /\ ((t - t0) / (t1 - t0) <= 1)%Q.
Proof.
  intros t t0 t1 A B. assert (D : (0 < t1 - t0)%Q) by lra. split; [apply Qle_shift_div_l; auto; lra | apply Qle_shift_div_r; auto; lra].
Qed.
(** a colour fades from v0 to v1: v0 until t0, v1 from t1, and between them each component is the linear interpolation, rounded down *)
Theorem C87_fade : forall n e t t0 t1 v0 v1 r g b a r' g' b' a', v0 <> v1 -> (t0 < t1)%Q -> totuple n e v0 = Ok (rgba r g b a) -> totuple n e v1 = Ok (rgba r' g' b' a') ->
  exists r'' g'' b'' a'', colorinterpolate n e t t0 (Some t1) v0 v1 = Ok (CTup (rgba r'' g'' b'' a'')) /\
  ((t <= t0)%Q -> r'' = r /\ g'' = g /\ b'' = b /\ a'' = a) /\ ((t1 <= t)%Q -> r'' = r' /\ g'' = g' /\ b'' = b' /\ a'' = a') /\
  ((t0 < t)%Q -> (t < t1)%Q -> forall x y z, In (x, y, z) [(r, r', r''); (g, g', g''); (b, b', b''); (a, a', a'')] ->
    Z.min x y <= z <= Z.max x y /\
    (0 <= x -> 0 <= y -> let exact := (inject_Z x + (t - t0) / (t1 - t0) * (inject_Z y - inject_Z x))%Q in (inject_Z z <= exact)%Q /\ (exact < inject_Z (z + 1))%Q)).
Proof.
  intros n e t t0 t1 v0 v1 r g b a r' g' b' a' N L A B.
  destruct (interpolates n e t t0 t1 v0 v1 r g b a r' g' b' a' N ltac:(lra) A B) as [H|H]; [|apply ceq_eq in H; contradiction]. rewrite (interpolate_cases t t0 t1 _ _ L) in H. rewrite H.
  destruct (Qle_bool t t0) eqn:E; [apply Qle_bool_iff in E | assert (E' : (t0 < t)%Q) by (apply Qnot_le_lt; intros X; apply Qle_bool_iff in X; congruence); destruct (Qle_bool t1 t) eqn:F; [apply Qle_bool_iff in F | assert (F' : (t < t1)%Q) by (apply Qnot_le_lt; intros X; apply Qle_bool_iff in X; congruence)]].
  - exists r, g, b, a. split; [reflexivity|]. split; [auto|]. split; intros; exfalso; lra.
  - exists r', g', b', a'. split; [reflexivity|]. split; [intros; exfalso; lra|]. split; [auto | intros; exfalso; lra].
  - cbn [zip map]. set (p := ((t - t0) / (t1 - t0))%Q). exists (fade p r r'), (fade p g g'), (fade p b b'), (fade p a a'). split; [reflexivity|]. split; [intros; exfalso; lra|]. split; [intros; exfalso; lra|].
    intros _ _ x y z I. destruct (part t t0 t1 E' F') as (P0 & P1). fold p in P0, P1.
    assert (Z : z = fade p x y) by (destruct I as [I|[I|[I|[I|[]]]]]; injection I as <- <- <-; reflexivity). subst z. split; [apply fade_between; auto|]. intros X Y. cbv zeta.
    unfold fade. destruct (x =? y) eqn:Q; [apply Z.eqb_eq in Q; subst y; rewrite inject_Z_plus; change (inject_Z 1) with 1%Q; split; lra|].
    assert (NN : (0 <= (1 - p) * inject_Z x + p * inject_Z y)%Q) by (assert (0 <= inject_Z x)%Q by (change 0%Q with (inject_Z 0); rewrite <- Zle_Qle; auto); assert (0 <= inject_Z y)%Q by (change 0%Q with (inject_Z 0); rewrite <- Zle_Qle; auto); nra).
    destruct (trunc_floor _ NN) as (U & V). split; lra.
Qed.
(** the moments may also be given in reverse *)
Theorem C87_reverse : forall n e t t0 t1 v0 v1 r g b a r' g' b' a', v0 <> v1 -> (t0 < t1)%Q -> totuple n e v0 = Ok (rgba r g b a) -> totuple n e v1 = Ok (rgba r' g' b' a') ->
  colorinterpolate n e t t1 (Some t0) v1 v0 = colorinterpolate n e t t0 (Some t1) v0 v1.
Proof.
  intros n e t t0 t1 v0 v1 r g b a r' g' b' a' N L A B.
  destruct (interpolates n e t t0 t1 v0 v1 r g b a r' g' b' a' N ltac:(lra) A B) as [H|H]; [|apply ceq_eq in H; contradiction].
  destruct (interpolates n e t t1 t0 v1 v0 r' g' b' a' r g b a ltac:(auto) ltac:(lra) B A) as [K|K]; [|apply ceq_eq in K; symmetry in K; contradiction].
  rewrite H, K. do 3 f_equal. rewrite (interpolate_cases t t0 t1 _ _ L). unfold interpolate. destruct (Qlt_le_dec t0 t1) as [_|X]; [|lra]. destruct (Qeq_bool t0 t1) eqn:E; [apply Qeq_bool_iff in E; lra | reflexivity].
Qed.
(** tuples of three are opaque, tuples of four are taken as they are; others are refused *)
Theorem C87_tuple : forall n e l, (2 < length l)%nat -> totuple (S n) e (CTup l) = if Nat.eqb (length l) 3 then Ok (l ++ [CNum 255])%list else if Nat.eqb (length l) 4 then Ok l else Bad.
Proof. intros n e l L. destruct l as [|a [|b [|c [|d [|? ?]]]]]; cbn [length] in L; try lia; reflexivity. Qed.
(** without end or without difference the colour does not change; without duration it is the second *)
Theorem C87_constant : forall n e t t0 v0 v1, colorinterpolate n e t t0 None v0 v1 = Ok v0 /\ forall t1, (v0 = v1 -> colorinterpolate n e t t0 (Some t1) v0 v1 = Ok v0) /\ (t0 == t1 -> colorinterpolate n e t t0 (Some t1) v0 v1 = Ok v1)%Q.
Proof.
  intros n e t t0 v0 v1. assert (R : forall c, ceq c c = true).
  { fix IH 1. intros [|x|s|l]; cbn [ceq]; [reflexivity | apply Z.eqb_refl | apply String.eqb_refl |]. induction l as [|a l IL]; [reflexivity|]. rewrite (IH a), IL. reflexivity. }
  unfold colorinterpolate. split; [destruct (ceq v0 v1); reflexivity|]. intros t1. split.
  - intros ->. rewrite R. reflexivity.
  - intros E. apply Qeq_bool_iff in E. rewrite E. destruct (ceq v0 v1) eqn:C; [apply ceq_eq in C; subst; reflexivity | reflexivity].
Qed.
(** grey is dark up to 127; a lighter colour is not darker; pure green is light, pure red and blue are dark *)
Theorem C87_dark : (forall v, dark_rgb v v v = true <-> v <= 127) /\ (forall r g b r' g' b', r <= r' -> g <= g' -> b <= b' -> dark_rgb r' g' b' = true -> dark_rgb r g b = true) /\
  dark_rgb 0 255 0 = false /\ dark_rgb 255 0 0 = true /\ dark_rgb 0 0 255 = true /\ dark_rgb 255 0 255 = true.
Proof.
  unfold dark_rgb. split; [|split; [|repeat split]].
  - intros v. rewrite negb_true_iff, Z.ltb_ge. lia.
  - intros r g b r' g' b' R G B. rewrite !negb_true_iff, !Z.ltb_ge. lia.
Qed.
(** fg and bg can not be set to fg or bg *)
Theorem C87_forbidden : forall n e c f, c = CStr "fg" \/ c = CStr "bg" -> set_colors n e (Some c) f = Bad /\ set_colors n e None (Some c) = Bad.
Proof. intros n e c f [-> | ->]; split; reflexivity. Qed.
(** violated: the result is not always a tuple *)
Theorem C87_tuple_refuted : exists n e t t0 t1 v0 v1 c l l', totuple n e v0 = Ok l /\ totuple n e v1 = Ok l' /\ colorinterpolate n e t t0 t1 v0 v1 = Ok c /\ forall m, c <> CTup m.
Proof.
  exists 5%nat, (mkColors (CStr "black") (CStr "white")), 1%Q, 0%Q, (Some 2%Q), (CStr "red"), (CStr "red"), (CStr "red"), (rgba 255 0 0 255), (rgba 255 0 0 255). repeat split; try (vm_compute; reflexivity). discriminate.
Qed.

(** ** The default foreground *)
(** specifications that do not refer to other colours *)
Definition plain (c : cspec) : Prop := match c with CStr s => s <> "fg" /\ s <> "bg" | CTup [CNum _; CNum _; CNum _] | CTup [CNum _; CNum _; CNum _; CNum _] => True | _ => False end.
Lemma string_same : forall n e e' s, s <> "fg" -> s <> "bg" -> totuple n e (CStr s) = totuple n e' (CStr s).
Proof.
  intros n e e' s F B. destruct n as [|n]; [reflexivity|].
  assert (D : (exists t, s = String "#" t) \/ forall t, s <> String "#" t) by (destruct s as [|c s]; [right; discriminate | destruct (ascii_dec c "#") as [->|N]; [left; exists s; reflexivity | right; intros t E; injection E as -> _; auto]]).
  destruct D as [(t & ->)|D]; [reflexivity|]. rewrite !totuple_named by auto. unfold named. destruct (match split s with (h, [a]) => (h, a) | _ => (s, "FF") end) as (name, alpha).
  destruct (lookup (norm name) colornames) as [hex|] eqn:L; [|reflexivity]. apply lookup_in in L. destruct L as (k & I). destruct (entry k hex I) as (_ & _ & _ & t & -> & _).
  destruct n as [|n]; [reflexivity|]. destruct (Nat.eqb (String.length (String "#" t)) 7); reflexivity.
Qed.
Lemma plain_same : forall n e e' c, plain c -> totuple n e c = totuple n e' c.
Proof.
  intros n e e' c P. destruct c as [|z|s|l]; try destruct P; [apply string_same; auto|]. cbn [plain] in P.
  destruct n as [|n]; [reflexivity|]. destruct l as [|[] [|[] [|[] [|[] [|? ?]]]]]; try destruct P; reflexivity.
Qed.
Lemma bg_same : forall n f f' b, plain b -> totuple n (mkColors f b) (CStr "bg") = totuple n (mkColors f' b) (CStr "bg").
Proof.
  intros n f f' b P. destruct n as [|n]; [reflexivity|]. cbn [totuple bind String.eqb Ascii.eqb Bool.eqb background]. rewrite (plain_same n (mkColors f b) (mkColors f' b) b P).
  destruct (totuple n (mkColors f' b) b) as [l| |] eqn:T; try reflexivity. cbn [bind]. apply C87_four in T. destruct l as [|x [|y [|z [|w [|? ?]]]]]; try discriminate T; reflexivity.
Qed.
Lemma dark_same : forall n f f' b, plain b -> is_dark n (mkColors f b) (CStr "bg") = is_dark n (mkColors f' b) (CStr "bg").
Proof.
  intros n f f' b P. unfold is_dark. rewrite (bg_same n f f' b P). destruct (totuple n (mkColors f' b) (CStr "bg")) as [l| |]; try reflexivity. cbn [bind].
  destruct n as [|n]; [reflexivity|]. cbn [totuple bind]. rewrite (bg_same n f f' b P). reflexivity.
Qed.
(** if only a background is given, then the foreground is the darkest or lightest colour, whichever differs from the background *)
Theorem C87_contrast : forall n e b e', plain b -> set_colors n e (Some b) None = Ok e' -> (3 <= n)%nat ->
  background e' = b /\ exists d, is_dark n e' (CStr "bg") = Ok d /\ is_dark n e' (CStr "fg") = Ok (negb d) /\ totuple n e' (CStr "fg") = Ok (if d then rgba 255 255 255 255 else rgba 0 0 0 255).
Proof.
  intros n e b e' P H L. unfold set_colors in H. destruct (forbidden b); [discriminate H|]. cbv zeta in H. destruct (is_dark n (mkColors (foreground e) b) (CStr "bg")) as [d| |] eqn:D; try discriminate H.
  cbn [bind] in H. injection H as <-. split; [reflexivity|]. exists d. rewrite (dark_same n _ (foreground e) b P). split; [exact D|].
  destruct n as [|[|[|n]]]; try lia.
  assert (F : totuple (S (S (S n))) (mkColors (CStr (if d then "white" else "black")) b) (CStr "fg") = Ok (if d then rgba 255 255 255 255 else rgba 0 0 0 255)).
  { apply C87_reference. cbn [foreground]. destruct d; vm_compute; reflexivity. }
  split; [|exact F]. unfold is_dark. rewrite F. destruct d; reflexivity.
Qed.
(** violated: a background that refers to the foreground *)
Theorem C87_contrast_refuted : exists n e b e', set_colors n e (Some b) None = Ok e' /\ totuple n e' (CStr "bg") = totuple n e' (CStr "fg") /\ totuple n e' (CStr "fg") = Ok (rgba 255 255 255 255).
Proof.
  exists 9%nat, (mkColors (CStr "black") (CStr "white")), (CTup [CStr "fg"; CNum 255]), (mkColors (CStr "white") (CTup [CStr "fg"; CNum 255])). repeat split.
Qed.

Definition e0 : colors := mkColors (CStr "black") (CStr "white").
Example C87_case : spelled "Dark Violet" "darkviolet" /\ In ("darkviolet", "#" ++ hh true 148 ++ hh true 0 ++ hh true 211) colornames /\
  totuple 5 e0 (CStr "Dark Violet#80") = Ok (rgba 148 0 211 128) /\ totuple 5 e0 (CTup [CStr "fg"; CNum 7]) = Ok (rgba 0 0 0 7) /\
  colorinterpolate 5 e0 1 0 (Some 3%Q) (CStr "red") (CStr "#0000ff80") = Ok (CTup (rgba 170 0 85 212)) /\
  set_colors 5 e0 (Some (CStr "navy")) None = Ok (mkColors (CStr "white") (CStr "navy")) /\ plain (CStr "navy").
Proof.
  split; [|split; [vm_compute; tauto|]].
  - repeat (apply sp_end || apply sp_char || apply sp_space || (apply sp_capital; [cbn; tauto|])).
  - repeat split; try (vm_compute; reflexivity); discriminate.
Qed.
Print Assumptions C87_name.
Print Assumptions C87_fade.
Print Assumptions C87_contrast.
