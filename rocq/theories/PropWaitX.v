(** C79: the value given with a state in wait means the same in all its forms. *)
From Coq Require Import ZArith NArith List Bool String Ascii Lia.
From Verif Require Import WaitExpr.
Import ListNotations.

(** What a condition is documented to mean for the present value v of its state: a constant is compared with it; in an expression $ stands for it;
    a function is called with it *)
Definition meaning (n : nat) (glob : string -> option val) (g : given) (v : val) : out :=
  match g with
  | GConst c => Val (VB (py_eq c v))
  | GText s t => if has_dollar s then py_eval n glob v v t else Val (VB (py_eq (VS s) v))
  | GFun f | GCallable f => Val (VB (f v))
  end.
(** no $ within the text literals of an expression *)
Definition unquoted (t : list tok) : Prop := forall s, In (TStr s) t -> has_dollar s = false.
(** conditions that are taken for what they are: no $ in constants, no callables that are not functions, no $ in the text literals of an expression *)
Definition regular (g : given) : Prop :=
  match g with GConst c => dollar_in c = false | GText s t => has_dollar s = true -> unquoted t | GFun _ => True | GCallable _ => False end.

(** ** Replacing $ by one token *)
Lemma repl_none : forall r s, has_dollar s = false -> repl r s = s.
Proof. induction s as [|c s IH]; cbn; auto. destruct (Ascii.eqb c "$"); cbn; [discriminate|]. intros H. rewrite IH; auto. Qed.
Section One.
Variable a : atom.
Definition fa (x : atom) : atom := match x with ADollar => a | x => x end.
Definition ft (x : tok) : tok := match x with TAtom x => TAtom (fa x) | x => x end.
Fixpoint fe (e : expr) : expr :=
  match e with
  | EAtom x => EAtom (fa x) | EStr s => EStr s | ENil => ENil | ECons x y => ECons (fe x) (fe y) | ENeg x => ENeg (fe x)
  | EBin o x y => EBin o (fe x) (fe y) | EAnd x y => EAnd (fe x) (fe y) | EOr x y => EOr (fe x) (fe y) | ENot x => ENot (fe x)
  end.
Definition fk (k : nt) : nt :=
  match k with
  | NOrT e => NOrT (fe e) | NAndT e => NAndT (fe e) | NCmpT c e => NCmpT (option_map fe c) (fe e) | NSumT e => NSumT (fe e) | NProdT e => NProdT (fe e) | k => k
  end.
Definition fr (r : pres) : pres := match r with POk e t => POk (fe e) (map ft t) | r => r end.
Lemma replace_one : forall r t, unquoted t -> replace [TAtom a] r t = map ft t.
Proof.
  induction t as [|x t IH]; intros H; auto. change (x :: t) with ([x] ++ t). unfold replace in *. rewrite flat_map_app.
  rewrite IH by (intros s I; apply H; right; auto). destruct x as [[]|s|]; auto. cbn. rewrite repl_none; auto. apply H. left; auto.
Qed.
Lemma fr_bind : forall r k k', (forall e t, k' (fe e) (map ft t) = fr (k e t)) -> pbind (fr r) k' = fr (pbind r k).
Proof. intros [] k k' H; cbn; auto. Qed.
Lemma cmp_map : forall t, cmp_op (map ft t) = option_map (fun x => (fst x, map ft (snd x))) (cmp_op t).
Proof. intros [|[|s|o] t]; cbn; auto. destruct o; cbn; auto. destruct t as [|[|s|o] t]; cbn; auto. destruct o; auto. Qed.
Lemma parse_map : forall n k t, parse n (fk k) (map ft t) = fr (parse n k t).
Proof.
  induction n as [|n IH]; intros k t; [reflexivity|].
  assert (B : forall k t K K', (forall e r, K' (fe e) (map ft r) = fr (K e r)) -> pbind (parse n (fk k) (map ft t)) K' = fr (pbind (parse n k t) K)).
  { intros. rewrite IH. apply fr_bind; auto. }
  assert (BO : forall t K K', (forall e r, K' (fe e) (map ft r) = fr (K e r)) -> pbind (parse n NOr (map ft t)) K' = fr (pbind (parse n NOr t) K)) by (intros; apply (B NOr); auto).
  assert (BA : forall t K K', (forall e r, K' (fe e) (map ft r) = fr (K e r)) -> pbind (parse n NAnd (map ft t)) K' = fr (pbind (parse n NAnd t) K)) by (intros; apply (B NAnd); auto).
  assert (BN : forall t K K', (forall e r, K' (fe e) (map ft r) = fr (K e r)) -> pbind (parse n NNot (map ft t)) K' = fr (pbind (parse n NNot t) K)) by (intros; apply (B NNot); auto).
  assert (BS : forall t K K', (forall e r, K' (fe e) (map ft r) = fr (K e r)) -> pbind (parse n NSum (map ft t)) K' = fr (pbind (parse n NSum t) K)) by (intros; apply (B NSum); auto).
  assert (BP : forall t K K', (forall e r, K' (fe e) (map ft r) = fr (K e r)) -> pbind (parse n NProd (map ft t)) K' = fr (pbind (parse n NProd t) K)) by (intros; apply (B NProd); auto).
  assert (BG : forall t K K', (forall e r, K' (fe e) (map ft r) = fr (K e r)) -> pbind (parse n NSign (map ft t)) K' = fr (pbind (parse n NSign t) K)) by (intros; apply (B NSign); auto).
  assert (BT : forall t K K', (forall e r, K' (fe e) (map ft r) = fr (K e r)) -> pbind (parse n NAtom (map ft t)) K' = fr (pbind (parse n NAtom t) K)) by (intros; apply (B NAtom); auto).
  assert (BI : forall t K K', (forall e r, K' (fe e) (map ft r) = fr (K e r)) -> pbind (parse n NItems (map ft t)) K' = fr (pbind (parse n NItems t) K)) by (intros; apply (B NItems); auto).
  destruct k; cbn [parse fk].
  - apply BA. intros. apply (IH (NOrT e)).
  - apply BN. intros. apply (IH (NAndT e)).
  - destruct t as [|[x|s|[]] t]; cbn [map ft]; try (match goal with |- parse n NCmp _ = fr (parse n NCmp ?w) => exact (IH NCmp w) end). apply BN. reflexivity.
  - apply BS. intros. apply (IH (NCmpT None e)).
  - apply BP. intros. apply (IH (NSumT e)).
  - apply BG. intros. apply (IH (NProdT e)).
  - destruct t as [|[x|s|[]] t]; cbn [map ft]; try (match goal with |- parse n NPow _ = fr (parse n NPow ?w) => exact (IH NPow w) end). apply BG. reflexivity.
  - apply BT. intros e [|[x|s|[]] r]; cbn [map ft]; try reflexivity. apply BG. reflexivity.
  - destruct t as [|[x|s|[]] t]; cbn [map ft]; try reflexivity.
    destruct t as [|[x|s|[]] t]; cbn [map ft]; try reflexivity;
      match goal with |- pbind (parse n NOr ?u) _ = fr (pbind (parse n NOr ?w) _) => change u with (map ft w); apply BO end; intros e' [|[y|s'|[]] r]; cbn [map ft]; try reflexivity;
      apply BI; reflexivity.
  - destruct t as [|[x|s|[]] t]; cbn [map ft]; try reflexivity. apply BA. intros. apply (IH (NOrT (EOr e e0))).
  - destruct t as [|[x|s|[]] t]; cbn [map ft]; try reflexivity. apply BN. intros. apply (IH (NAndT (EAnd e e0))).
  - rewrite cmp_map. destruct (cmp_op t) as [[[o neg] r]|]; cbn [option_map fst snd].
    + apply BS. intros e' r'. cbv zeta.
      rewrite <- (IH (NCmpT (Some (chained chain (if neg then ENot (EBin o e e') else EBin o e e'))) e')). cbn [fk option_map]. do 3 f_equal. destruct chain, neg; reflexivity.
    + destruct chain; reflexivity.
  - destruct t as [|[x|s|[]] t]; cbn [map ft]; try reflexivity; apply BP; intros e' r; [apply (IH (NSumT (EBin OPlus e e'))) | apply (IH (NSumT (EBin OMinus e e')))].
  - destruct t as [|[x|s|[]] t]; cbn [map ft]; try reflexivity. apply BG. intros. apply (IH (NProdT (EBin OTimes e e0))).
  - destruct t as [|[x|s|[]] t]; cbn [map ft]; try reflexivity;
      match goal with |- pbind (parse n NOr ?u) _ = fr (pbind (parse n NOr ?w) _) => change u with (map ft w); apply BO end; intros e' [|[y|s'|[]] r]; cbn [map ft]; try reflexivity;
      apply BI; reflexivity.
Qed.
Lemma eval_map : forall glob v, eval glob v v (EAtom a) = Val v -> forall e, eval glob v v (fe e) = eval glob v v e.
Proof. intros glob v H. induction e as [[]| | | | | | | |]; cbn [fe fa eval]; auto; rewrite ?IHe, ?IHe1; auto; destruct (eval glob v v e1); cbn; auto; rewrite IHe2; auto. Qed.
Lemma py_eval_map : forall n glob v t, eval glob v v (EAtom a) = Val v -> py_eval n glob v v (map ft t) = py_eval n glob v v t.
Proof.
  intros n glob v t H. unfold py_eval. change NOr with (fk NOr) at 1. rewrite parse_map. destruct (parse n NOr t) as [e [|]| |]; cbn; auto. apply eval_map; auto.
Qed.
End One.

(** ** Replacing $ by a sign and a number *)
Section Two.
Variable z : Z.
(** no $ directly after an operand, no power *)
Definition nd (t : list tok) : Prop := match t with TAtom ADollar :: _ => False | _ => True end.
Definition operand (x : tok) : Prop := match x with TAtom _ | TStr _ | TOp OClose => True | TOp _ => False end.
Fixpoint good (t : list tok) : Prop := match t with [] => True | x :: r => x <> TOp OPow /\ (operand x -> nd r) /\ good r end.
Definition f2 (t : list tok) : list tok := flat_map (fun x => match x with TAtom ADollar => [TOp OMinus; TAtom (ANum z)] | x => [x] end) t.
Fixpoint fe2 (e : expr) : expr :=
  match e with
  | EAtom ADollar => ENeg (EAtom (ANum z)) | EAtom x => EAtom x | EStr s => EStr s | ENil => ENil | ECons x y => ECons (fe2 x) (fe2 y) | ENeg x => ENeg (fe2 x)
  | EBin o x y => EBin o (fe2 x) (fe2 y) | EAnd x y => EAnd (fe2 x) (fe2 y) | EOr x y => EOr (fe2 x) (fe2 y) | ENot x => ENot (fe2 x)
  end.
Definition fk2 (k : nt) : nt :=
  match k with
  | NOrT e => NOrT (fe2 e) | NAndT e => NAndT (fe2 e) | NCmpT c e => NCmpT (option_map fe2 c) (fe2 e) | NSumT e => NSumT (fe2 e) | NProdT e => NProdT (fe2 e) | k => k
  end.
Definition needs (k : nt) : Prop := match k with NOr | NAnd | NNot | NCmp | NSum | NProd | NSign | NItems => False | _ => True end.
Definition same (o m : pres) : Prop := match o with POk e r => m = POk (fe2 e) (f2 r) /\ good r /\ nd r | PErr => m = PErr | PFuel => True end.
Lemma same_bind : forall o m K K', same o m -> (forall e r, good r -> nd r -> same (K e r) (K' (fe2 e) (f2 r))) -> same (pbind o K) (pbind m K').
Proof. intros [e r| |] m K K' H F; cbn in *; [destruct H as (-> & G & N); cbn; auto | subst; reflexivity | exact I]. Qed.
Lemma same_ok : forall e t, good t -> nd t -> same (POk e t) (POk (fe2 e) (f2 t)).
Proof. intros. cbn. auto. Qed.
Ltac kn := cbn; tauto.
Lemma parse_two : forall n m k t, m = S n -> good t -> (needs k -> nd t) -> same (parse n k t) (parse m (fk2 k) (f2 t)).
Proof.
  induction n as [|n IH]; intros [|m] k t Em G D; [discriminate | exact I | discriminate |]. injection Em as Em. specialize (IH m).
  assert (B : forall k t K K', good t -> (needs k -> nd t) -> (forall e r, good r -> nd r -> same (K e r) (K' (fe2 e) (f2 r))) ->
    same (pbind (parse n k t) K) (pbind (parse m (fk2 k) (f2 t)) K')) by (intros; apply same_bind; auto).
  assert (GT : forall x r, good (x :: r) -> good r) by (intros x r (_ & _ & X); exact X).
  assert (GO : forall x r, good (x :: r) -> operand x -> nd r) by (intros x r (_ & X & _); exact X).
  destruct k; cbn [parse fk2 needs] in *.
  - apply (B NAnd); auto. intros. apply (IH (NOrT e)); auto.
  - apply (B NNot); auto. intros. apply (IH (NAndT e)); auto.
  - destruct t as [|[[]|s|[]] t]; cbn [f2 flat_map app];
      try (match goal with |- same (parse n NCmp ?w) _ => apply (IH NCmp w); auto; fail end).
    apply (B NNot); eauto. intros. apply same_ok; auto.
  - apply (B NSum); auto. intros. apply (IH (NCmpT None e)); auto.
  - apply (B NProd); auto. intros. apply (IH (NSumT e)); auto.
  - apply (B NSign); auto. intros. apply (IH (NProdT e)); auto.
  - destruct t as [|[[]|s|[]] t]; cbn [f2 flat_map app];
      try (match goal with |- same (parse n NPow ?w) _ => apply (IH NPow w); cbn; auto; fail end).
    + subst m. destruct n as [|[|n]]; [exact I | exact I |]. cbn [parse pbind].
      assert (N : nd t) by (apply (GO _ _ G); exact I). assert (T : good t) by eauto.
      destruct t as [|[[]|s|[]] t]; cbn [f2 flat_map app pbind fe2 same]; try contradiction; auto. destruct T as (T & _). congruence.
    + apply (B NSign); eauto. intros. apply same_ok; auto.
  - apply (B NAtom); auto. intros e r G' N. destruct r as [|[[]|s|[]] r]; cbn [f2 flat_map app]; try (apply same_ok; auto; fail); try contradiction. destruct G' as (G' & _). congruence.
  - assert (N : nd t) by auto. destruct t as [|[[]|s|[]] t]; cbn [f2 flat_map app]; try reflexivity; try contradiction;
      try (match goal with |- same (POk ?e t) _ => apply (same_ok e); [eauto | apply (GO _ _ G); exact I] end).
    destruct t as [|[[]|s|[]] t]; cbn [f2 flat_map app];
      try (match goal with |- same (pbind (parse n NOr ?w) _) _ => apply (B NOr w); [eauto | cbn; tauto |] end; intros e' r G' N';
           destruct r as [|[[]|s'|[]] r]; cbn [f2 flat_map app]; try reflexivity; try contradiction;
           [ apply same_ok; [eauto | apply (GO _ _ G'); exact I] | apply (B NItems); [eauto | cbn; tauto |]; intros; apply (same_ok (ECons e' e)); auto ]).
    apply (same_ok ENil); [eauto | apply (GO _ _ (GT _ _ G)); exact I].
  - destruct t as [|[[]|s|[]] t]; cbn [f2 flat_map app]; try (apply same_ok; auto; fail); try (destruct (D I); fail). apply (B NAnd); eauto. intros. apply (IH (NOrT (EOr e e0))); auto.
  - destruct t as [|[[]|s|[]] t]; cbn [f2 flat_map app]; try (apply same_ok; auto; fail); try (destruct (D I); fail). apply (B NNot); eauto. intros. apply (IH (NAndT (EAnd e e0))); auto.
  - assert (N : nd t) by auto.
    assert (Q : cmp_op (f2 t) = option_map (fun x => (fst x, f2 (snd x))) (cmp_op t)).
    { destruct t as [|[[]|s|[]] t]; try reflexivity; try contradiction. destruct t as [|[[]|s|[]] t]; reflexivity. }
    assert (R : forall o neg r, cmp_op t = Some (o, neg, r) -> good r).
    { intros o neg r E. destruct t as [|[[]|s|[]] t]; cbn in E; try discriminate; try (injection E as <- <- <-; eauto; fail).
      destruct t as [|[[]|s|[]] t]; cbn in E; try discriminate. injection E as <- <- <-. eauto. }
    rewrite Q. destruct (cmp_op t) as [[[o neg] r]|]; cbn [option_map fst snd].
    + apply (B NSum); [apply (R _ _ _ eq_refl) | cbn; tauto |]. intros e' r' G' N'. cbv zeta.
      pose proof (IH (NCmpT (Some (chained chain (if neg then ENot (EBin o e e') else EBin o e e'))) e') r' Em G' (fun _ => N')) as X. cbn [fk2 option_map] in X.
      replace (chained (option_map fe2 chain) (if neg then ENot (EBin o (fe2 e) (fe2 e')) else EBin o (fe2 e) (fe2 e')))
        with (fe2 (chained chain (if neg then ENot (EBin o e e') else EBin o e e'))) by (destruct chain, neg; reflexivity). exact X.
    + destruct chain; apply same_ok; auto.
  - destruct t as [|[[]|s|[]] t]; cbn [f2 flat_map app]; try (apply same_ok; auto; fail); try (destruct (D I); fail); apply (B NProd); eauto; intros e' r G' N';
      [apply (IH (NSumT (EBin OPlus e e'))) | apply (IH (NSumT (EBin OMinus e e')))]; auto.
  - destruct t as [|[[]|s|[]] t]; cbn [f2 flat_map app]; try (apply same_ok; auto; fail); try (destruct (D I); fail). apply (B NSign); eauto. intros. apply (IH (NProdT (EBin OTimes e e0))); auto.
  - destruct t as [|[[]|s|[]] t]; cbn [f2 flat_map app];
      try (match goal with |- same (pbind (parse n NOr ?w) _) _ => apply (B NOr w); [eauto | cbn; tauto |] end; intros e' r G' N';
           destruct r as [|[[]|s'|[]] r]; cbn [f2 flat_map app]; try reflexivity; try contradiction;
           [ apply (same_ok (ECons e' ENil)); [eauto | apply (GO _ _ G'); exact I] | apply (B NItems); [eauto | cbn; tauto |]; intros; apply (same_ok (ECons e' e)); auto ]).
    apply (same_ok ENil); [eauto | apply (GO _ _ G); exact I].
Qed.
Lemma eval_two : forall glob v, v = VI (- z) -> forall e, eval glob v v (fe2 e) = eval glob v v e.
Proof. intros glob v H. induction e as [[]| | | | | | | |]; cbn [fe2 eval]; auto; rewrite ?IHe, ?IHe1; auto; try (destruct (eval glob v v e1); cbn; auto; rewrite IHe2; auto). cbn. congruence. Qed.
Lemma py_eval_two : forall n glob v t, v = VI (- z) -> good t -> py_eval n glob v v t <> Exc Fuel -> py_eval (S n) glob v v (f2 t) = py_eval n glob v v t.
Proof.
  intros n glob v t V G F. unfold py_eval in *. pose proof (parse_two n (S n) NOr t eq_refl G (fun f => match f with end)) as X. cbn [fk2] in X.
  destruct (parse n NOr t) as [e r| |]; cbn [same] in X; [|rewrite X; reflexivity | congruence]. destruct X as (-> & G' & N). 
  destruct r as [|[[]|s|] r]; cbn [f2 flat_map app]; try contradiction; auto. apply eval_two; auto.
Qed.
End Two.

(** With all=True a condition is tested for what it means, whatever the value of the state *)
Theorem C79_all : forall n glob g v, regular g -> test true n glob g v = meaning n glob g v.
Proof.
  intros n glob [c|s t|f|f] v R; cbn in *; auto; [rewrite R; auto | | contradiction]. destruct (has_dollar s); auto.
  unfold test_all. rewrite replace_one by auto. apply py_eval_map. reflexivity.
Qed.
(** Otherwise (any): for truth values and integers that are not negative, and for every value when the condition is a constant or a function *)
Definition plain (v : val) : Prop := match v with VB _ => True | VI z => (0 <= z)%Z | _ => False end.
Theorem C79_any : forall n glob g v, regular g -> (plain v \/ match g with GText s _ => has_dollar s = false | _ => True end) -> test false n glob g v = meaning n glob g v.
Proof.
  intros n glob [c|s t|f|f] v R P; cbn in *; auto; [rewrite R; auto | | contradiction]. destruct (has_dollar s); auto. destruct P as [P|]; [|discriminate].
  unfold test_any. destruct v as [[]|z| |]; cbn in P; try contradiction; cbn [tokens_of].
  - rewrite replace_one by auto. apply py_eval_map. reflexivity.
  - rewrite replace_one by auto. apply py_eval_map. reflexivity.
  - destruct (Z.ltb_spec z 0); [lia|]. rewrite replace_one by auto. apply py_eval_map. reflexivity.
Qed.
(** negative integers: if the expression has no ** (and no $ right behind an operand, which is not an expression) *)
Theorem C79_any_negative : forall n glob s t z, regular (GText s t) -> has_dollar s = true -> (z < 0)%Z -> good t -> meaning n glob (GText s t) (VI z) <> Exc Fuel ->
  test false (S n) glob (GText s t) (VI z) = meaning n glob (GText s t) (VI z).
Proof.
  intros n glob s t z R H Z G F. cbn [test meaning regular] in *. rewrite H in *. unfold test_any. cbn [tokens_of]. destruct (Z.ltb_spec z 0); [|lia].
  assert (E : replace [TOp OMinus; TAtom (ANum (- z))] (str_of (VI z)) t = f2 (- z) t).
  { specialize (R eq_refl). clear - R. induction t as [|x t IH]; auto. change (x :: t) with ([x] ++ t). unfold replace, f2 in *. rewrite !flat_map_app.
    rewrite IH by (intros s I; apply R; right; auto). destruct x as [[]|s|]; auto. cbn [flat_map]. rewrite repl_none; auto. apply R. left; auto. }
  rewrite E. apply py_eval_two; auto. rewrite Z.opp_involutive. reflexivity.
Qed.
(** The component goes on when one of the conditions holds, with all=True when they all hold *)
Definition holds (n : nat) (glob : string -> option val) (c : given * val) : bool := match meaning n glob (fst c) (snd c) with Val x => truthy x | Exc _ => false end.
Definition decided (n : nat) (glob : string -> option val) (c : given * val) : Prop := forall e, meaning n glob (fst c) (snd c) <> Exc e.
Theorem C79_honored : forall n glob l, Forall (fun c => regular (fst c) /\ decided n glob c) l ->
  honored_all n glob l = Val (VB (forallb (holds n glob) l)) /\
  (Forall (fun c => plain (snd c) \/ match fst c with GText s _ => has_dollar s = false | _ => True end) l -> honored_any n glob l = Val (VB (existsb (holds n glob) l))).
Proof.
  intros n glob l F. induction F as [|[g v] l [R D] F [IH1 IH2]]; [split; reflexivity|]. cbn [fst snd] in *. split.
  - cbn [honored_all forallb]. rewrite C79_all by auto. unfold holds at 1. cbn [fst snd]. specialize (D). unfold decided in D. cbn [fst snd] in D.
    destruct (meaning n glob g v) as [x|e]; [|destruct (D e); auto]. cbn [obind]. destruct (truthy x); auto.
  - intros P. inversion P as [|? ? P1 P2]; subst. cbn [fst snd] in P1. cbn [honored_any existsb]. rewrite C79_any by auto. unfold holds at 1. cbn [fst snd].
    unfold decided in D. cbn [fst snd] in D. destruct (meaning n glob g v) as [x|e]; [|destruct (D e); auto]. cbn [obind]. destruct (truthy x); auto.
Qed.

(** ** Where the code does something else *)
(** The text of a state value is put in the expression without quotes: every comparison that starts with $ raises NameError for a text that is a name
    (unless something happens to have that name) *)
Theorem C79_text_value_fails : forall n glob src t s o e, regular (GText src t) -> has_dollar src = true -> name s = true -> glob s = None ->
  parse n NOr t = POk (EBin o (EAtom ADollar) e) [] -> test false n glob (GText src t) (VS s) = Exc NameError.
Proof.
  intros n glob src t s o e R H N G P. cbn [test regular] in *. rewrite H in *. unfold test_any. cbn [tokens_of]. rewrite N, replace_one by auto.
  unfold py_eval. change NOr with (fk (AName s) NOr). rewrite parse_map, P. cbn [fr map fe fa eval]. unfold lookup.
  assert (K : keyword s = false) by (unfold name in N; destruct (keyword s); [rewrite andb_false_r in N; discriminate | auto]).
  destruct (String.eqb_spec s "True") as [->|]; [discriminate|]. destruct (String.eqb_spec s "False") as [->|]; [discriminate|]. rewrite G. reflexivity.
Qed.
Definition red_or_yellow (x : tok) : list tok := [x; TOp OIn; TOp OOpen; TStr "red"; TOp OComma; TStr "yellow"; TOp OClose].
(** the example in the documentation of wait: '$ in ("red","yellow")' when the light is red *)
Theorem C79_documented_example_refuted : exists g v, regular g /\ meaning 50 (fun _ => None) g v = Val (VB true) /\ test false 50 (fun _ => None) g v = Exc NameError.
Proof.
  exists (GText "$ in (""red"",""yellow"")" (red_or_yellow (TAtom ADollar))), (VS "red"). split; [|split; vm_compute; reflexivity].
  intros _ s [H|[H|[H|[H|[H|[H|[H|[]]]]]]]]; inversion H; reflexivity.
Qed.
(** with quotes around the $ it is as wanted with any, and never true with all=True *)
Theorem C79_quoted_refuted : exists g, (forall s, name s = true -> test false 50 (fun _ => None) g (VS s) = Val (VB (String.eqb s "red" || String.eqb s "yellow"))) /\
  forall v, test true 50 (fun _ => None) g v = Val (VB false).
Proof.
  exists (GText """$"" in (""red"",""yellow"")" (red_or_yellow (TStr "$"))). split; [|intros v; reflexivity].
  intros s N. cbn [test]. replace (has_dollar _) with true by reflexivity. unfold test_any. cbn [tokens_of]. rewrite N. unfold py_eval, red_or_yellow, replace. cbn [flat_map app].
  replace (repl (str_of (VS s)) "$") with s by (cbn; clear; induction s; cbn; congruence).
  replace (repl (str_of (VS s)) "red") with "red"%string by reflexivity. replace (repl (str_of (VS s)) "yellow") with "yellow"%string by reflexivity.
  cbn [parse pbind cmp_op chained eval obind binary existsb py_eq]. rewrite orb_false_r. reflexivity.
Qed.
(** '$**2==9' for a state with value -3: -3**2 is -9 *)
Theorem C79_negative_power_refuted : exists g v, regular g /\ meaning 50 (fun _ => None) g v = Val (VB true) /\ test true 50 (fun _ => None) g v = Val (VB true) /\
  test false 50 (fun _ => None) g v = Val (VB false).
Proof.
  exists (GText "$**2==9" [TAtom ADollar; TOp OPow; TAtom (ANum 2); TOp OEq; TAtom (ANum 9)]), (VI (-3)). split; [|do 2 (split; [vm_compute; reflexivity|]); vm_compute; reflexivity].
  intros _ s [H|[H|[H|[H|[H|[]]]]]]; inversion H.
Qed.
(** a constant that contains a $ is taken for an expression: waiting until the currency is US$ *)
Theorem C79_dollar_constant_refuted : exists s t, test false 50 (fun _ => None) (GText s t) (VS s) <> Val (VB true) /\ test true 50 (fun _ => None) (GText s t) (VS s) = Exc SyntaxError.
Proof. exists "US$"%string, [TAtom (AName "US"); TAtom ADollar]. split; vm_compute; [discriminate | reflexivity]. Qed.
(** a method given as condition is never called *)
Theorem C79_callable_refuted : forall all n glob v, test all n glob (GCallable (fun _ => true)) v = Val (VB false) /\ meaning n glob (GCallable (fun _ => true)) v = Val (VB true).
Proof. intros. split; reflexivity. Qed.

(** ** What expressions with whole numbers mean *)
(** '$==a or $==b': the value is one of the two; 'not $==a' and '$!=a': it is not *)
Definition dlr : tok := TAtom ADollar.
Definition num (z : Z) : tok := TAtom (ANum z).
Lemma dollar_all : forall n glob s t z, has_dollar s = true -> unquoted t -> test true n glob (GText s t) (VI z) = py_eval n glob (VI z) (VI z) t.
Proof. intros n glob s t z H U. rewrite C79_all by (cbn; auto). cbn. rewrite H. reflexivity. Qed.
Lemma dollar_test : forall all n glob s t z b, has_dollar s = true -> unquoted t -> good t -> py_eval n glob (VI z) (VI z) t = Val (VB b) -> py_eval (S n) glob (VI z) (VI z) t = Val (VB b) ->
  test all (S n) glob (GText s t) (VI z) = Val (VB b).
Proof.
  intros all n glob s t z b H U G E E'. destruct all; [rewrite dollar_all; auto|].
  assert (M : meaning n glob (GText s t) (VI z) = Val (VB b)) by (cbn; rewrite H; auto).
  destruct (Z.ltb_spec z 0).
  - rewrite <- M. apply C79_any_negative; auto; [cbn; auto | rewrite M; discriminate].
  - rewrite C79_any; [cbn; rewrite H; auto | cbn; auto | left; cbn; auto].
Qed.
Ltac cases := cbn; repeat match goal with |- context [Z.eqb ?a ?b] => destruct (Z.eqb a b) | |- context [Z.leb ?a ?b] => destruct (Z.leb a b) | |- context [Z.ltb ?a ?b] => destruct (Z.ltb a b) end; reflexivity.
Ltac form := intros; apply dollar_test;
  [assumption | intros ? I; repeat (destruct I as [I|I]; [discriminate I|]); destruct I | cbn; repeat split; try discriminate; tauto | cases | cases].
Theorem C79_either : forall all k glob s z a b, has_dollar s = true ->
  test all (40 + k) glob (GText s [dlr; TOp OEq; num a; TOp OOr; dlr; TOp OEq; num b]) (VI z) = Val (VB (Z.eqb z a || Z.eqb z b)).
Proof. form. Qed.
Theorem C79_both : forall all k glob s z a b, has_dollar s = true ->
  test all (40 + k) glob (GText s [dlr; TOp OGe; num a; TOp OAnd; dlr; TOp ONe; num b]) (VI z) = Val (VB (Z.leb a z && negb (Z.eqb z b))).
Proof. form. Qed.
Theorem C79_not : forall all k glob s z a, has_dollar s = true ->
  test all (40 + k) glob (GText s [TOp ONot; dlr; TOp OEq; num a]) (VI z) = Val (VB (negb (Z.eqb z a))).
Proof. form. Qed.
(** 'a<=$<b' and 'a<$<=b', as in mathematics *)
Theorem C79_range : forall all k glob s z a b, has_dollar s = true ->
  test all (40 + k) glob (GText s [num a; TOp OLe; dlr; TOp OLt; num b]) (VI z) = Val (VB (Z.leb a z && Z.ltb z b)) /\
  test all (40 + k) glob (GText s [num a; TOp OLt; dlr; TOp OLe; num b]) (VI z) = Val (VB (Z.ltb a z && Z.leb z b)).
Proof. intros; split; revert all k glob s z a b H; form. Qed.
(** '$': honored when the value is not 0 *)
Theorem C79_nonzero : forall k glob s z, has_dollar s = true -> honored_all (40 + k) glob [(GText s [dlr], VI z)] = Val (VB (negb (Z.eqb z 0))) /\
  honored_any (40 + k) glob [(GText s [dlr], VI z)] = Val (VB (negb (Z.eqb z 0))).
Proof.
  intros k glob s z H. cbn [honored_all honored_any test]. rewrite H. split.
  - unfold test_all. cbn. destruct (Z.eqb z 0); reflexivity.
  - unfold test_any, tokens_of. destruct (Z.ltb_spec z 0) as [L|L]; cbn; [rewrite Z.opp_involutive|]; destruct (Z.eqb z 0); reflexivity.
Qed.
(** tuples of whole numbers are the same when all their items are *)
Theorem C79_tuple : forall all n glob l m, test all n glob (GConst (VT (map VI l))) (VT (map VI m)) = Val (VB true) <-> l = m.
Proof.
  intros all n glob l m. assert (D : dollar_in (VT (map VI l)) = false) by (cbn; induction l; cbn; auto).
  cbn [test]. rewrite D. clear D. revert m. induction l as [|x l IH]; intros [|y m]; cbn; split; intros H; try discriminate; auto.
  - injection H as H. apply andb_true_iff in H. destruct H as (A & B). apply Z.eqb_eq in A. subst y. f_equal. apply IH. cbn. rewrite B. reflexivity.
  - injection H as -> ->. rewrite Z.eqb_refl. cbn [andb]. specialize (IH m). cbn in IH. apply IH. reflexivity.
Qed.
(** a $ within quotes is replaced as well, with all=True by the text state._value *)
Theorem C79_quoted_all_refuted : exists s t, has_dollar s = true /\ forall v, test true 50 (fun _ => None) (GText s t) v = Val (VB true) /\ meaning 50 (fun _ => None) (GText s t) v = Val (VB false).
Proof. exists "'$'=='state._value'"%string, [TStr "$"; TOp OEq; TStr "state._value"]. split; [reflexivity|]. intros v. split; vm_compute; reflexivity. Qed.
Example C79_case2 : has_dollar "3<=$<5" = true /\ test false 45 (fun _ => None) (GText "3<=$<5" [num 3; TOp OLe; dlr; TOp OLt; num 5]) (VI (-4)) = Val (VB false) /\
  test true 45 (fun _ => None) (GText "3<=$<5" [num 3; TOp OLe; dlr; TOp OLt; num 5]) (VI 3) = Val (VB true).
Proof. repeat split. Qed.
(** Three conditions on three states: '3<$<=5 or not $' for 4, the constant "on" for "off", a function that wants more than 10 for 7 *)
Example C79_case : let glob := fun _ : string => @None val in
  let l := [ (GText "3<$<=5 or not $" [TAtom (ANum 3); TOp OLt; TAtom ADollar; TOp OLe; TAtom (ANum 5); TOp OOr; TOp ONot; TAtom ADollar], VI 4);
             (GText "on" [TAtom (AName "on")], VS "off"); (GFun (fun v => match v with VI z => Z.ltb 10 z | _ => false end), VI 7) ] in
  Forall (fun c => regular (fst c) /\ decided 50 glob c) l /\
  Forall (fun c => plain (snd c) \/ match fst c with GText s _ => has_dollar s = false | _ => True end) l /\
  map (holds 50 glob) l = [true; false; false] /\ honored_any 50 glob l = Val (VB true) /\ honored_all 50 glob l = Val (VB false) /\
  good [TAtom (ANum 3); TOp OTimes; TAtom ADollar; TOp OLt; TAtom ADollar] /\
  test false 51 glob (GText "3*$<$" [TAtom (ANum 3); TOp OTimes; TAtom ADollar; TOp OLt; TAtom ADollar]) (VI (-2)) = Val (VB true).
Proof.
  intros glob l. split.
  { repeat constructor; cbn [fst regular]; try (intros _ s H; repeat (destruct H as [H|H]; [inversion H; reflexivity|]); destruct H);
      intros e; vm_compute; discriminate. }
  split; [repeat constructor; cbn; lia|]. do 3 (split; [vm_compute; reflexivity|]). split; [cbn; repeat split; try discriminate; tauto | vm_compute; reflexivity].
Qed.
Print Assumptions C79_all.
Print Assumptions C79_any.
Print Assumptions C79_any_negative.
Print Assumptions C79_honored.
Print Assumptions C79_text_value_fails.
Print Assumptions C79_documented_example_refuted.
Print Assumptions C79_quoted_refuted.
Print Assumptions C79_negative_power_refuted.
Print Assumptions C79_dollar_constant_refuted.
Print Assumptions C79_callable_refuted.
Print Assumptions C79_either.
Print Assumptions C79_both.
Print Assumptions C79_not.
Print Assumptions C79_range.
Print Assumptions C79_nonzero.
Print Assumptions C79_tuple.
Print Assumptions C79_quoted_all_refuted.
