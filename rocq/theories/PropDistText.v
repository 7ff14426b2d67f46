(* C82: a distribution given as text is the one that is meant. *)

From Coq Require Import Bool Ascii String QArith Lia Arith List.
From Verif Require Import Dist DistText.
Import ListNotations.
Open Scope list_scope.

Lemma teqb_iff a : forall b, teqb a b = true <-> a = b.
Proof.
  induction a as [ | x a IH]; intros [ | y b]; cbn; split; intros H; try discriminate; auto.
  - apply andb_true_iff in H as (A & B). apply Ascii.eqb_eq in A. apply IH in B. congruence.
  - inversion H; subst. rewrite Ascii.eqb_refl. cbn. apply IH. reflexivity.
Qed.

Lemma has_iff c s : has c s = true <-> In c s.
Proof.
  unfold has. rewrite existsb_exists. split.
  - intros (x & A & B). apply Ascii.eqb_eq in B. subst. exact A.
  - intros H. exists c. split; [exact H | apply Ascii.eqb_refl].
Qed.

Lemma split_nil c s : split c s <> [].
Proof. destruct s as [ | a t]; cbn; [discriminate | ]. destruct (Ascii.eqb a c); [discriminate | ].
  destruct (split c t); discriminate. Qed.

Lemma split_none c a : ~ In c a -> split c a = [a].
Proof.
  induction a as [ | x a IH]; intros H; [reflexivity | ]. cbn [split].
  destruct (Ascii.eqb x c) eqn:E.
  - apply Ascii.eqb_eq in E. subst. exfalso. apply H. left. reflexivity.
  - rewrite IH; [reflexivity | ]. intros X. apply H. right. exact X.
Qed.

Lemma split_cut c a b : ~ In c a -> split c (a ++ c :: b) = a :: split c b.
Proof.
  induction a as [ | x a IH]; intros H; cbn [app split].
  - rewrite Ascii.eqb_refl. reflexivity.
  - destruct (Ascii.eqb x c) eqn:E.
    + apply Ascii.eqb_eq in E. subst. exfalso. apply H. left. reflexivity.
    + rewrite IH; [reflexivity | ]. intros X. apply H. right. exact X.
Qed.

Lemma join_split c s : join c (split c s) = s.
Proof.
  induction s as [ | a t IH]; [reflexivity | ]. cbn [split]. destruct (Ascii.eqb a c) eqn:E.
  - apply Ascii.eqb_eq in E. subst. destruct (split c t) as [ | x l] eqn:S.
    + exfalso. exact (split_nil c t S).
    + cbn [join app]. f_equal. exact IH.
  - destruct (split c t) as [ | x l] eqn:S; [exfalso; exact (split_nil c t S) | ].
    cbn [join] in IH |- *. destruct l; [congruence | ]. cbn [app]. f_equal. exact IH.
Qed.

(* ---------- blanks ---------- *)

Definition blanks (s : text) : Prop := Forall (fun c => blank c = true) s.

Lemma lstrip_blanks l s : blanks l -> lstrip (l ++ s) = lstrip s.
Proof. induction 1 as [ | c l B _ IH]; [reflexivity | ]. cbn. rewrite B. exact IH. Qed.

Lemma lstrip_all l : blanks l -> lstrip l = [].
Proof. induction 1 as [ | c l B _ IH]; [reflexivity | ]. cbn. rewrite B. exact IH. Qed.

Lemma strip_mid l p r : blanks l -> blanks r ->
  (forall c t, p = c :: t -> blank c = false) -> (forall c t, p = t ++ [c] -> blank c = false) ->
  strip (l ++ p ++ r) = p.
Proof.
  intros BL BR F L. unfold strip. rewrite (lstrip_blanks _ _ BL).
  destruct p as [ | c t].
  - cbn [app]. rewrite (lstrip_all _ BR). reflexivity.
  - cbn [app lstrip]. rewrite (F c t eq_refl).
    change (c :: t ++ r) with ((c :: t) ++ r). rewrite rev_app_distr.
    rewrite lstrip_blanks.
    + destruct (exists_last (l := c :: t)) as (u & z & E); [discriminate | ]. rewrite E.
      rewrite rev_app_distr. cbn [rev app lstrip]. rewrite (L z u E).
      cbn [rev]. rewrite rev_involutive. reflexivity.
    + unfold blanks in *. apply Forall_rev. exact BR.
Qed.

Lemma blank_up c : blank (upc c) = blank c.
Proof. destruct c as [[] [] [] [] [] [] [] []]; reflexivity. Qed.

Lemma blanks_up l : blanks l -> blanks (upper l).
Proof.
  unfold blanks, upper. intros H. apply Forall_map. eapply Forall_impl; [ | exact H].
  cbn. intros c E. rewrite blank_up. exact E.
Qed.

Lemma blanks_in l c : blanks l -> blank c = false -> ~ In c l.
Proof. intros B E H. unfold blanks in B. rewrite Forall_forall in B. rewrite (B c H) in E. discriminate. Qed.

Lemma up_open c : upc c = open_ -> c = open_.
Proof. destruct c as [[] [] [] [] [] [] [] []]; vm_compute; intros H; congruence. Qed.

(* a letter *)
Definition letter (c : ascii) : bool :=
  let n := nat_of_ascii (upc c) in Nat.leb 65 n && Nat.leb n 90.

Lemma letter_up c : letter (upc c) = letter c.
Proof. destruct c as [[] [] [] [] [] [] [] []]; reflexivity. Qed.
Lemma letter_blank c : letter c = true -> blank c = false.
Proof. destruct c as [[] [] [] [] [] [] [] []]; vm_compute; congruence. Qed.
Lemma letter_open c : letter c = true -> c <> open_.
Proof. destruct c as [[] [] [] [] [] [] [] []]; vm_compute; congruence. Qed.

(* ---------- names ---------- *)

(* each distribution, with the number of letters that is needed *)
Definition table : list (string * nat) :=
  [("Uniform", 1); ("Constant", 1); ("Triangular", 1); ("Exponential", 1); ("Normal", 1);
   ("Cdf", 2); ("Pdf", 1); ("CumPdf", 2); ("Weibull", 1); ("Gamma", 1); ("Erlang", 2);
   ("Beta", 1); ("IntUniform", 1); ("Poisson", 2); ("External", 3)]%string%nat.

(* p is the beginning of the name n, of at least k letters, in any mix of capitals
   and small letters *)
Definition abbreviates (p : text) (n : string) (k : nat) : Prop :=
  (k <= length p)%nat /\ upper p = firstn (length p) (upper (txt n)).

Lemma table_letters : forallb (fun '(n, k) => Nat.leb 1 k && forallb letter (txt n)) table = true.
Proof. vm_compute. reflexivity. Qed.

Lemma table_find : forallb (fun '(n, k) =>
    forallb (fun j => match find (starts (firstn j (upper (txt n)))) names with
                      | Some x => teqb x (txt n) | None => false end)
      (List.seq k (S (length (txt n)) - k))) table = true.
Proof. vm_compute. reflexivity. Qed.

Lemma abbreviates_letters n k p : In (n, k) table -> abbreviates p n k ->
  forallb letter p = true /\ p <> [] /\ (length p <= length (txt n))%nat.
Proof.
  intros I (A & B). pose proof table_letters as T. rewrite forallb_forall in T.
  specialize (T _ I). cbn beta iota in T. apply andb_true_iff in T as (T1 & T2). apply Nat.leb_le in T1.
  split; [ | split].
  - rewrite forallb_forall in *. intros c H. rewrite <- letter_up.
    assert (X : In (upc c) (upper p)) by (apply in_map; exact H).
    rewrite B in X. assert (Y : In (upc c) (upper (txt n))).
    { rewrite <- (firstn_skipn (length p) (upper (txt n))). apply in_app_iff. left. exact X. }
    unfold upper in Y. apply in_map_iff in Y as (d & E & D). rewrite <- E, letter_up. exact (T2 d D).
  - intros ->. cbn in A. lia.
  - apply (f_equal (@length ascii)) in B. unfold upper in B.
    rewrite map_length, firstn_length, map_length in B. lia.
Qed.

Lemma expand_call pre rest : ~ In open_ pre -> strip (upper pre) <> [] ->
  expand (pre ++ open_ :: rest) =
  match find (starts (strip (upper pre))) names with
  | Some n => TOk (n ++ open_ :: rest)
  | None => TOk (pre ++ open_ :: rest)
  end.
Proof.
  intros NO NE. unfold expand. rewrite (split_cut _ _ _ NO). cbn [hd tl].
  assert (H : has open_ (pre ++ open_ :: rest) = true).
  { apply has_iff. apply in_app_iff. right. left. reflexivity. }
  rewrite H. cbn [negb]. rewrite orb_false_r.
  destruct (teqb (strip (upper pre)) []) eqn:E; [apply teqb_iff in E; contradiction | ].
  destruct (find (starts (strip (upper pre))) names) as [n | ]; [ | reflexivity].
  f_equal. cbn [join]. destruct (split open_ rest) as [ | x l] eqn:S.
  - exfalso. exact (split_nil _ _ S).
  - rewrite <- S, join_split. reflexivity.
Qed.

(* The first letters of a name are enough, capital or small, with any blanks around
   them; what is between the parentheses is left as it is. *)
Theorem C82_name n k p l r rest :
  In (n, k) table -> abbreviates p n k -> blanks l -> blanks r ->
  expand (l ++ p ++ r ++ open_ :: rest) = TOk (txt n ++ open_ :: rest).
Proof.
  intros I A BL BR. destruct (abbreviates_letters n k p I A) as (LE & NE & LEN).
  rewrite forallb_forall in LE.
  replace (l ++ p ++ r ++ open_ :: rest) with ((l ++ p ++ r) ++ open_ :: rest)
    by (rewrite <- !app_assoc; reflexivity).
  assert (UP : upper (l ++ p ++ r) = upper l ++ upper p ++ upper r)
    by (unfold upper; rewrite !map_app; reflexivity).
  assert (ST : strip (upper (l ++ p ++ r)) = upper p).
  { rewrite UP. apply strip_mid; try (apply blanks_up; assumption).
    - intros c t E. apply letter_blank.
      assert (X : In c (upper p)) by (rewrite E; left; reflexivity).
      apply in_map_iff in X as (d & <- & D). rewrite letter_up. exact (LE d D).
    - intros c t E. apply letter_blank.
      assert (X : In c (upper p)) by (rewrite E; apply in_app_iff; right; left; reflexivity).
      apply in_map_iff in X as (d & <- & D). rewrite letter_up. exact (LE d D). }
  rewrite expand_call.
  - rewrite ST. pose proof table_find as T. rewrite forallb_forall in T. specialize (T _ I).
    cbn beta iota in T. rewrite forallb_forall in T. destruct A as (A1 & A2).
    specialize (T (length p)). rewrite <- A2 in T.
    destruct (find (starts (upper p)) names) as [x | ].
    + rewrite (proj1 (teqb_iff x (txt n))); [reflexivity | ]. apply T. apply in_seq. lia.
    + exfalso. assert (X : false = true); [apply T; apply in_seq; lia | discriminate].
  - rewrite !in_app_iff. intros [X | [X | X]].
    + exact (blanks_in l open_ BL eq_refl X).
    + exact (letter_open _ (LE _ X) eq_refl).
    + exact (blanks_in r open_ BR eq_refl X).
  - rewrite ST. destruct p; [contradiction | discriminate].
Qed.

(* Conversely, a word is only ever replaced by a name that begins with it; a text
   with any other word before the parenthesis is evaluated as it is. *)
Theorem C82_word pre rest s :
  ~ In open_ pre -> strip (upper pre) <> [] -> expand (pre ++ open_ :: rest) = TOk s ->
  s = pre ++ open_ :: rest \/
  exists n k, In (n, k) table /\ s = txt n ++ open_ :: rest /\
    strip (upper pre) = firstn (length (strip (upper pre))) (upper (txt n)).
Proof.
  intros NO NE H. rewrite (expand_call _ _ NO NE) in H.
  destruct (find (starts (strip (upper pre))) names) as [n | ] eqn:F; inversion H; subst; [ | auto].
  right. apply find_some in F as (A & B). unfold starts in B. apply teqb_iff in B.
  unfold names in A. apply in_map_iff in A as (m & <- & A).
  assert (X : exists k, In (m, k) table).
  { change (In m (map fst table)) in A. apply in_map_iff in A as ((a & k) & <- & A). exists k. exact A. }
  destruct X as (k & X). exists m, k. split; [exact X | ]. split; [reflexivity | exact B].
Qed.

(* ---------- numbers ---------- *)

Definition plain (s : text) : Prop := ~ In open_ s /\ ~ In close_ s /\ ~ In comma s.

Lemma without_none c s : ~ In c s -> without c s = s.
Proof.
  unfold without. induction s as [ | a s IH]; intros H; [reflexivity | ]. cbn [filter].
  destruct (Ascii.eqb a c) eqn:E.
  - apply Ascii.eqb_eq in E. subst. exfalso. apply H. left. reflexivity.
  - cbn [negb]. f_equal. apply IH. intros X. apply H. right. exact X.
Qed.
Lemma without_app c a b : without c (a ++ b) = without c a ++ without c b.
Proof. apply filter_app. Qed.

(* the numbers, separated by commas, with or without parentheses around them *)
Definition listed (par : bool) (l : text) (cs : list text) (r : text) : text :=
  if par then l ++ open_ :: join comma cs ++ close_ :: r else join comma cs.

Lemma join_plain cs : Forall plain cs -> cs <> [] ->
  ~ In open_ (join comma cs) /\ ~ In close_ (join comma cs) /\ split comma (join comma cs) = cs.
Proof.
  induction cs as [ | c cs IH]; intros F NE; [contradiction | ].
  inversion F as [ | ? ? (P1 & P2 & P3) F2]; subst. destruct cs as [ | d cs].
  - cbn [join]. repeat split; auto. apply split_none. exact P3.
  - destruct (IH F2) as (A & B & C); [discriminate | ]. cbn [join]. rewrite split_cut by exact P3.
    change (match cs with [] => d | _ :: _ => d ++ comma :: join comma cs end) with (join comma (d :: cs)).
    split; [ | split].
    + rewrite in_app_iff. intros [X | [X | X]]; [tauto | discriminate | tauto].
    + rewrite in_app_iff. intros [X | [X | X]]; [tauto | discriminate | tauto].
    + f_equal. exact C.
Qed.

(* One number is a Constant, two are a Uniform, three a Triangular, and more are
   refused; parentheses around them make no difference. *)
Theorem C82_numbers (par : bool) (l : text) (cs : list text) (r : text) :
  Forall plain cs -> cs <> [] -> blanks l -> blanks r ->
  exists c1 t, (if par then l ++ join comma cs ++ r else join comma cs) = join comma (c1 :: t) /\
  length (c1 :: t) = length cs /\
  expand (listed par l cs r) =
  match c1 :: t with
  | [c1] => TOk (txt "Constant(" ++ c1 ++ txt ")")
  | [c1; c2] => TOk (txt "Uniform(" ++ c1 ++ txt ", " ++ c2 ++ txt ")")
  | [c1; c2; c3] => TOk (txt "Triangular(" ++ c1 ++ txt ", " ++ c2 ++ txt ", " ++ c3 ++ txt ")")
  | _ => TValueErr
  end.
Proof.
  intros F NE BL BR.
  assert (G : forall spec, ~ In open_ spec -> ~ In close_ spec -> forall s,
    (teqb (strip (upper (hd [] (split open_ s)))) [] || negb (has open_ s) = true) ->
    without open_ (without close_ s) = spec ->
    expand s = match split comma spec with
    | [c1] => TOk (txt "Constant(" ++ c1 ++ txt ")")
    | [c1; c2] => TOk (txt "Uniform(" ++ c1 ++ txt ", " ++ c2 ++ txt ")")
    | [c1; c2; c3] => TOk (txt "Triangular(" ++ c1 ++ txt ", " ++ c2 ++ txt ", " ++ c3 ++ txt ")")
    | _ => TValueErr
    end).
  { intros spec _ _ s C E. unfold expand. rewrite C, E. reflexivity. }
  destruct (join_plain cs F NE) as (J1 & J2 & J3).
  destruct par.
  - (* the first number gets the blanks before, the last those after *)
    set (spec := l ++ join comma cs ++ r).
    assert (O1 : ~ In open_ spec).
    { unfold spec. rewrite !in_app_iff. intros [X | [X | X]];
        [exact (blanks_in l open_ BL eq_refl X) | tauto | exact (blanks_in r open_ BR eq_refl X)]. }
    assert (O2 : ~ In close_ spec).
    { unfold spec. rewrite !in_app_iff. intros [X | [X | X]];
        [exact (blanks_in l close_ BL eq_refl X) | tauto | exact (blanks_in r close_ BR eq_refl X)]. }
    assert (LEN : length (split comma spec) = length cs).
    { unfold spec. pose proof (blanks_in l comma BL eq_refl) as CL.
      pose proof (blanks_in r comma BR eq_refl) as CR. clear - F NE CL CR.
      revert l CL. induction cs as [ | c cs IH]; intros l CL; [contradiction | ].
      inversion F as [ | ? ? (P1 & P2 & P3) F2]; subst. destruct cs as [ | d cs].
      - cbn [join]. rewrite split_none; [reflexivity | ]. rewrite !in_app_iff. tauto.
      - cbn [join].
        change (match cs with [] => d | _ :: _ => d ++ comma :: join comma cs end) with (join comma (d :: cs)).
        replace (l ++ (c ++ comma :: join comma (d :: cs)) ++ r)
          with ((l ++ c) ++ comma :: ([] ++ join comma (d :: cs) ++ r))
          by (rewrite <- !app_assoc; reflexivity).
        rewrite split_cut by (rewrite in_app_iff; tauto). cbn [length]. f_equal.
        apply IH; [exact F2 | discriminate | intros []]. }
    destruct (split comma spec) as [ | c1 t] eqn:S; [exfalso; exact (split_nil _ _ S) | ].
    exists c1, t. split; [rewrite <- S, join_split; reflexivity | ]. split; [exact LEN | ].
    unfold listed. rewrite (G spec O1 O2), S; [reflexivity | | ].
    + rewrite split_cut by (apply blanks_in; [exact BL | reflexivity]). cbn [hd].
      replace (strip (upper l)) with (@nil ascii); [reflexivity | ].
      pose proof (strip_mid (upper l) [] [] (blanks_up _ BL)) as X. cbn [app] in X.
      rewrite app_nil_r in X. symmetry. apply X; [constructor | | ].
      * intros c t0 E. discriminate.
      * intros c t0 E. destruct t0; discriminate.
    + replace (l ++ open_ :: join comma cs ++ close_ :: r)
        with (l ++ [open_] ++ join comma cs ++ [close_] ++ r) by reflexivity.
      rewrite !without_app.
      rewrite (without_none close_ l) by (apply blanks_in; [exact BL | reflexivity]).
      rewrite (without_none close_ r) by (apply blanks_in; [exact BR | reflexivity]).
      rewrite (without_none close_ (join comma cs)) by exact J2.
      rewrite (without_none open_ l) by (apply blanks_in; [exact BL | reflexivity]).
      rewrite (without_none open_ r) by (apply blanks_in; [exact BR | reflexivity]).
      rewrite (without_none open_ (join comma cs)) by exact J1.
      reflexivity.
  - destruct cs as [ | c1 t]; [contradiction | ]. exists c1, t. split; [reflexivity | ].
    split; [reflexivity | ]. unfold listed. rewrite (G (join comma (c1 :: t)) J1 J2).
    + rewrite J3. reflexivity.
    + destruct (has open_ (join comma (c1 :: t))) eqn:H; [apply has_iff in H; contradiction | ].
      rewrite orb_true_r. reflexivity.
    + rewrite (without_none close_ _ J2). apply without_none. exact J1.
Qed.

(* ---------- the time unit ---------- *)

(* With time_unit, the argument is added to those in the text; if the text has a
   time_unit itself (eval then says so), the parameter is ignored. *)
Theorem C82_unit eval n k p l r args z u :
  In (n, k) table -> abbreviates p n k -> blanks l -> blanks r -> blanks z ->
  make eval (l ++ p ++ r ++ open_ :: args ++ close_ :: z) (Some u) =
  match eval (txt n ++ open_ :: args ++ txt ", time_unit=" ++ repr u ++ txt ")") with
  | inr ERepeated | inr EMultiple => eval (txt n ++ open_ :: args ++ close_ :: z)
  | x => x
  end.
Proof.
  intros I A BL BR BZ. unfold make. rewrite (C82_name n k p l r _ I A BL BR).
  replace (with_unit (txt n ++ open_ :: args ++ close_ :: z) u)
    with (txt n ++ open_ :: args ++ txt ", time_unit=" ++ repr u ++ txt ")"); [reflexivity | ].
  unfold with_unit.
  replace (strip (txt n ++ open_ :: args ++ close_ :: z)) with (txt n ++ open_ :: args ++ [close_]).
  - replace (txt n ++ open_ :: args ++ [close_]) with ((txt n ++ open_ :: args) ++ [close_])
      by (rewrite <- !app_assoc; reflexivity).
    rewrite removelast_last, <- !app_assoc. reflexivity.
  - symmetry. replace (txt n ++ open_ :: args ++ close_ :: z)
      with ([] ++ (txt n ++ open_ :: args ++ [close_]) ++ z)
      by (cbn [app]; rewrite <- !app_assoc; cbn [app]; rewrite <- !app_assoc; reflexivity).
    apply strip_mid; [constructor | exact BZ | | ].
    + intros c t E. pose proof table_letters as T. rewrite forallb_forall in T. specialize (T _ I).
      cbn beta iota in T. apply andb_true_iff in T as (_ & T). destruct (txt n) as [ | a b].
      * inversion E; subst. reflexivity.
      * inversion E; subst. apply letter_blank. cbn in T. apply andb_true_iff in T. tauto.
    + intros c t E. replace (txt n ++ open_ :: args ++ [close_]) with ((txt n ++ open_ :: args) ++ [close_]) in E
        by (rewrite <- !app_assoc; reflexivity).
      apply app_inj_tail in E as (_ & <-). reflexivity.
Qed.

(* ---------- mean and random stream ---------- *)

(* the time unit factor of a distribution *)
Definition factor (d : dist) : Q :=
  match d with
  | DExpo _ f | DNormal _ _ _ f | DInt _ _ f | DUni _ _ f | DTri _ _ _ f | DConst _ f
  | DWeib _ _ _ f | DGamma _ _ f | DErlang _ _ f => f
  | _ => 1
  end.

Definition composed (d : dist) : bool :=
  match d with DExpr _ _ _ | DMap _ _ | DBounded _ _ _ _ _ _ _ => true | _ => false end.

Definition same_mean (a b : option Q) : Prop :=
  match a, b with Some a, Some b => (a == b)%Q | None, None => True | _, _ => False end.

(** without time_unit: the text itself *)
Theorem C82_no_unit eval n k p l r rest :
  In (n, k) table -> abbreviates p n k -> blanks l -> blanks r ->
  make eval (l ++ p ++ r ++ open_ :: rest) None = eval (txt n ++ open_ :: rest).
Proof. intros I A BL BR. unfold make. rewrite (C82_name n k p l r rest I A BL BR). reflexivity. Qed.
Example C82_alphabet : upper (txt "abcdefghijklmnopqrstuvwxyz(_1)") = txt "ABCDEFGHIJKLMNOPQRSTUVWXYZ(_1)".
Proof. reflexivity. Qed.

(* Without time unit, and for a distribution that is not an expression, a map or a
   bounded one, the mean is that of the distribution in the text. *)
Theorem C82_mean d m :
  (factor d == 1)%Q -> composed d = false -> mean d = DOk m -> same_mean (text_mean d) m.
Proof.
  intros F C H. unfold text_mean.
  destruct d; cbn in *; try discriminate; inversion H; subst; cbn; try reflexivity;
    try (rewrite F; ring).
  - rewrite F. unfold Qdiv at 2. rewrite Qmult_1_r. reflexivity.
  - destruct m; cbn; [reflexivity | exact Logic.I].
  - destruct m; cbn; [reflexivity | exact Logic.I].
Qed.

(* the values of a Pdf or CumPdf, if they are no distributions *)
Definition simple (d : dist) : Prop :=
  match d with
  | DExpr _ _ _ | DMap _ _ | DBounded _ _ _ _ _ _ _ => False
  | DPdf l _ false | DCum l _ => Forall (fun x => is_dist (fst x) = false) l
  | _ => True
  end.

(* A sample of a simple distribution is one with the given random stream, and
   touches no other. *)
Theorem C82_stream {St} (G : rng St) d (r g : St) :
  simple d ->
  text_sample G d (r, g) = let '(v, r') := sample G d r in (v, (r', g)).
Proof.
  intros S. destruct d; cbn [simple] in S; try contradiction; try reflexivity.
  - cbn. unfold on1. cbn. destruct (gr_expo G (1 / mean) r) as (x, s1). reflexivity.
  - cbn. unfold on1. destruct use_gauss; cbn.
    + destruct (gr_gauss G mean sd r) as (x, s1). reflexivity.
    + destruct (gr_normal G mean sd r) as (x, s1). reflexivity.
  - cbn. unfold on1. cbn. destruct (gr_randint G (Qround.Qfloor lo) (Qround.Qfloor hi) r) as (x, s1). reflexivity.
  - cbn. unfold py_uniform. cbn. unfold on1. cbn. destruct (gr_random G r) as (x, s1). reflexivity.
  - cbn. unfold py_triangular. cbn. unfold on1. cbn. destruct (gr_random G r) as (x, s1).
    repeat match goal with |- context [if ?b then _ else _] => destruct b; try reflexivity end.
  - cbn. unfold on1. cbn. destruct (gr_weib G scale shape r) as (x, s1). reflexivity.
  - cbn. unfold on1. cbn. destruct (gr_gamma G shape scale r) as (x, s1). reflexivity.
  - cbn. unfold on1. cbn. destruct (gr_beta G alpha beta r) as (x, s1). reflexivity.
  - cbn. unfold on1. cbn. destruct (gr_gamma G shape (1 / rate) r) as (x, s1). reflexivity.
  - cbn. unfold on1. cbn. destruct (gr_random G r) as (x, s1). reflexivity.
  - destruct supports_n.
    + cbn. unfold on1. cbn. destruct (gr_pick G (length xs) 1 r) as (x, s1). reflexivity.
    + cbn. unfold on1. cbn. destruct (gr_random G r) as (x, s1). cbn.
      destruct (Qle_bool x 0); [reflexivity | ].
      induction S as [ | (v, c) l E _ IH]; [reflexivity | ]. cbn in E.
      destruct (Qle_bool x c); [ | exact IH]. destruct v; [reflexivity .. | discriminate].
  - cbn. unfold on1. cbn. destruct (gr_random G r) as (x, s1). cbn.
    destruct (Qle_bool x 0); [reflexivity | ].
    induction S as [ | (v, c) l E _ IH]; [reflexivity | ]. cbn in E.
    destruct (Qle_bool x c); [ | exact IH]. destruct v; [reflexivity .. | discriminate].
Qed.

(* ---------- what does not hold ---------- *)

(* "only the first letters are relevant; note that Erlang, Cdf, CumPdf and Poisson
   require at least two letters": External requires three, as Ex is Exponential. *)
Theorem C82_external_refuted :
  exists p rest, abbreviates p "External" 2 /\
    expand (p ++ open_ :: rest) = TOk (txt "Exponential" ++ open_ :: rest).
Proof.
  exists (txt "Ex"), (txt "stats.norm)"). split; [ | reflexivity].
  split; [cbn; lia | reflexivity].
Qed.

(* "a valid salabim distribution, where casing is not important": not for Pmf,
   CumPmf, Map and Bounded, which are not in the list of names; the text is
   evaluated as it is *)
Theorem C82_case_refuted :
  forall n, In n ["Pmf"; "CumPmf"; "Map"; "Bounded"]%string ->
  exists p, upper p = upper (txt n) /\ p <> txt n /\
    forall rest, expand (p ++ open_ :: rest) = TOk (p ++ open_ :: rest).
Proof.
  intros n I. exists (upper (txt n)).
  assert (X : forall n, In n ["Pmf"; "CumPmf"; "Map"; "Bounded"]%string ->
    upper (upper (txt n)) = upper (txt n) /\ upper (txt n) <> txt n /\
    existsb (Ascii.eqb open_) (upper (txt n)) = false /\ strip (upper (upper (txt n))) <> [] /\
    find (starts (strip (upper (upper (txt n))))) names = None).
  { clear. intros n [<- | [<- | [<- | [<- | []]]]]; vm_compute; repeat split; discriminate. }
  destruct (X n I) as (A & B & C & D & E). split; [exact A | ]. split; [exact B | ].
  intros rest. rewrite expand_call; [rewrite E; reflexivity | | exact D].
  intros H. apply has_iff in H. unfold has in H. congruence.
Qed.

(* "It is possible to use expressions in the specification": an expression that
   starts with a parenthesis loses its parentheses, so that (1+2)*3 is 7. *)
Theorem C82_parentheses_refuted :
  exists spec, ~ In comma spec /\ expand spec = TOk (txt "Constant(1+2*3)") /\
    spec = txt "(1+2)*3".
Proof.
  exists (txt "(1+2)*3"). split; [ | split; reflexivity].
  intros H. apply has_iff in H. discriminate.
Qed.

(* The time unit is put before the last character of the text, whatever that is:
   in an expression it applies to the last distribution only, or the text is no
   longer valid. *)
Theorem C82_unit_refuted :
  (exists a b u, with_unit (txt "Uniform(" ++ a ++ txt ")+Uniform(" ++ b ++ txt ")") u =
     txt "Uniform(" ++ a ++ txt ")+Uniform(" ++ b ++ txt ", time_unit=" ++ repr u ++ txt ")") /\
  (exists a u, with_unit (a ++ txt "*2") u = a ++ txt "*, time_unit=" ++ repr u ++ txt ")").
Proof.
  split.
  - exists (txt "1,2"), (txt "3,4"), (txt "hours"). reflexivity.
  - exists (txt "Uniform(1,2)"), (txt "hours"). reflexivity.
Qed.

(* With a time unit, and for expressions, mean() is not the mean of the distribution. *)
Theorem C82_mean_refuted :
  (exists d m, factor d = 60%Q /\ composed d = false /\ mean d = DOk m /\ ~ same_mean (text_mean d) m) /\
  (exists d m, composed d = true /\ mean d = DOk (Some m) /\ text_mean d = None).
Proof.
  split.
  - exists (DUni 1 3 60), (Some ((1 + 3) / 2 * 60)%Q). repeat split. vm_compute. discriminate.
  - exists (DExpr OAdd (PDist (DUni 1 3 1)) (PNum 4)), ((1 + 3) / 2 * 1 + 4)%Q. repeat split.
Qed.

(* The random stream that is given is not used for an expression. *)
Definition counter : rng nat :=
  mkRng (fun s => ((1 # 2)%Q, S s)) (fun _ s => (1%Q, S s)) (fun _ _ s => (1%Q, S s))
        (fun _ _ s => (1%Q, S s)) (fun a _ s => (a, S s)) (fun _ _ s => (1%Q, S s))
        (fun _ _ s => (1%Q, S s)) (fun _ _ s => (1%Q, S s)) (fun x => x) (fun _ _ s => ([0%nat], S s)).

Theorem C82_stream_refuted :
  exists d v r g, text_sample counter d (r, g) = (DOk v, (r, S g)).
Proof.
  exists (DExpr OAdd (PDist (DUni 1 3 1)) (PNum 4)).
  eexists. exists 0%nat, 0%nat. vm_compute. reflexivity.
Qed.

Example C82_case :
  expand (txt " uNi (12,15)") = TOk (txt "Uniform(12,15)") /\
  expand (txt "er(2,3)") = TOk (txt "Erlang(2,3)") /\
  expand (txt "E(2)") = TOk (txt "Exponential(2)") /\
  expand (txt "Pdf((1,2),(3,4))") = TOk (txt "Pdf((1,2),(3,4))") /\
  expand (txt "Pmf((1,2),(3,4))") = TOk (txt "Pmf((1,2),(3,4))") /\
  expand (txt "10.") = TOk (txt "Constant(10.)") /\
  expand (txt " (12,15) ") = TOk (txt "Uniform( 12, 15 )") /\
  expand (txt "1,2,3") = TOk (txt "Triangular(1, 2, 3)") /\
  expand (txt "1,2,3,4") = TValueErr /\
  with_unit (txt "Uniform(1,2)") (txt "hours") = txt "Uniform(1,2, time_unit='hours')".
Proof. repeat split. Qed.

Example C82_case_hyp :
  In ("Erlang", 2%nat)%string table /\ abbreviates (txt "eRl") "Erlang" 2 /\ blanks (txt "  ") /\
  Forall plain [txt "12"; txt "15"] /\ simple (DUni 1 3 1) /\ (factor (DUni 1 3 1) == 1)%Q.
Proof.
  split; [cbn; tauto | ]. split; [split; [cbn; lia | reflexivity] | ].
  split; [repeat constructor | ]. split; [ | split; [exact Logic.I | reflexivity]].
  repeat constructor; intros H; apply has_iff in H; discriminate.
Qed.

Print Assumptions C82_name.
Print Assumptions C82_word.
Print Assumptions C82_numbers.
Print Assumptions C82_unit.
Print Assumptions C82_mean.
Print Assumptions C82_stream.
Print Assumptions C82_external_refuted.
Print Assumptions C82_case_refuted.
Print Assumptions C82_parentheses_refuted.
Print Assumptions C82_unit_refuted.
Print Assumptions C82_mean_refuted.
Print Assumptions C82_stream_refuted.
Print Assumptions C82_no_unit.
