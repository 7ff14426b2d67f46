(* Distributions given as text: the class Distribution.

   Source: /repo/salabim/salabim.py 23371-23486.  The constructor rewrites the
   text and evaluates it as a Python expression; the rewriting is modelled, eval
   is a parameter.  A text is a list of 8-bit characters; upper() is that of
   ASCII letters, strip() removes ASCII white space. *)

From Coq Require Import Bool Ascii String QArith List.
From Verif Require Import Dist.
Import ListNotations.
Open Scope list_scope.

Definition text := list ascii.
Definition txt (s : string) : text := list_ascii_of_string s.

Definition upc (c : ascii) : ascii :=
  let n := nat_of_ascii c in
  if (Nat.leb 97 n && Nat.leb n 122)%bool then ascii_of_nat (n - 32) else c.
Definition upper (s : text) : text := map upc s.

(* white space: tab, line feed, vertical tab, form feed, return, 28-31, space *)
Definition blank (c : ascii) : bool :=
  let n := nat_of_ascii c in
  (Nat.leb 9 n && Nat.leb n 13) || (Nat.leb 28 n && Nat.leb n 32).
Fixpoint lstrip (s : text) : text :=
  match s with c :: t => if blank c then lstrip t else s | [] => [] end.
Definition strip (s : text) : text := rev (lstrip (rev (lstrip s))).

(* s.split(c) and c.join(l) *)
Fixpoint split (c : ascii) (s : text) : list text :=
  match s with
  | [] => [[]]
  | a :: t =>
      if Ascii.eqb a c then [] :: split c t
      else match split c t with x :: l => (a :: x) :: l | [] => [[a]] end
  end.
Fixpoint join (c : ascii) (l : list text) : text :=
  match l with
  | [] => []
  | [x] => x
  | x :: l => x ++ c :: join c l
  end.
(* s.replace(c, "") and c in s *)
Definition without (c : ascii) (s : text) : text := filter (fun a => negb (Ascii.eqb a c)) s.
Definition has (c : ascii) (s : text) : bool := existsb (Ascii.eqb c) s.

Fixpoint teqb (a b : text) : bool :=
  match a, b with
  | [], [] => true
  | x :: a, y :: b => Ascii.eqb x y && teqb a b
  | _, _ => false
  end.

Definition open_ : ascii := "("%char.
Definition close_ : ascii := ")"%char.
Definition comma : ascii := ","%char.

(* the names in the order in which they are tried 23398-23414 *)
Definition names : list text :=
  map txt ["Uniform"; "Constant"; "Triangular"; "Exponential"; "Normal"; "Cdf"; "Pdf"; "CumPdf";
           "Weibull"; "Gamma"; "Erlang"; "Beta"; "IntUniform"; "Poisson"; "External"]%string.

(* 23415: pre == distype.upper()[: len(pre)] *)
Definition starts (pre n : text) : bool := teqb pre (firstn (length pre) (upper n)).

Inductive tres := TOk (s : text) | TValueErr.

(* 23374-23418: the text that is evaluated *)
Definition expand (spec : text) : tres :=
  let sp := split open_ spec in
  let pre := strip (upper (hd [] sp)) in
  if teqb pre [] || negb (has open_ spec) then
    let spec := without open_ (without close_ spec) in
    match split comma spec with
    | [c1] => TOk (txt "Constant(" ++ c1 ++ txt ")")
    | [c1; c2] => TOk (txt "Uniform(" ++ c1 ++ txt ", " ++ c2 ++ txt ")")
    | [c1; c2; c3] => TOk (txt "Triangular(" ++ c1 ++ txt ", " ++ c2 ++ txt ", " ++ c3 ++ txt ")")
    | _ => TValueErr
    end
  else
    match find (starts pre) names with
    | Some n => TOk (join open_ (n :: tl sp))
    | None => TOk spec
    end.

(* what eval does: a distribution, or an exception; the two that are caught:
   SyntaxError "keyword argument repeated", TypeError "got multiple values" *)
Inductive everr := ERepeated | EMultiple | EOther | EValue.
Definition evres := (dist + everr)%type.

(* repr of a text that contains no quotes *)
Definition repr (s : text) : text := txt "'" ++ s ++ txt "'".

(* 23424 *)
Definition with_unit (spec unit : text) : text :=
  removelast (strip spec) ++ txt ", time_unit=" ++ repr unit ++ txt ")".

(* 23419-23434 *)
Definition make (eval : text -> evres) (spec : text) (unit : option text) : evres :=
  match expand spec with
  | TValueErr => inr EValue
  | TOk spec =>
      match unit with
      | None => eval spec
      | Some u =>
          match eval (with_unit spec u) with
          | inr ERepeated | inr EMultiple => eval spec
          | r => r
          end
      end
  end.

(* 23442-23445, 23480-23486; None is nan *)
Definition text_mean (d : dist) : option Q := match mean_attr d with Some m => m | None => None end.

(* the functions of one of two random streams *)
Definition on1 {A B C} (f : A -> B * A) : A * C -> B * (A * C) :=
  fun s => let '(b, a) := f (fst s) in (b, (a, snd s)).
Definition on2 {A B C} (f : A -> B * A) : C * A -> B * (C * A) :=
  fun s => let '(b, a) := f (snd s) in (b, (fst s, a)).
Definition first {St} (G : rng St) : rng (St * St) :=
  mkRng (on1 (gr_random G)) (fun a => on1 (gr_expo G a)) (fun a b => on1 (gr_gauss G a b))
        (fun a b => on1 (gr_normal G a b)) (fun a b => on1 (gr_randint G a b))
        (fun a b => on1 (gr_weib G a b)) (fun a b => on1 (gr_gamma G a b))
        (fun a b => on1 (gr_beta G a b)) (gr_sqrt G) (fun n k => on1 (gr_pick G n k)).
Definition second {St} (G : rng St) : rng (St * St) :=
  mkRng (on2 (gr_random G)) (fun a => on2 (gr_expo G a)) (fun a b => on2 (gr_gauss G a b))
        (fun a b => on2 (gr_normal G a b)) (fun a b => on2 (gr_randint G a b))
        (fun a b => on2 (gr_weib G a b)) (fun a b => on2 (gr_gamma G a b))
        (fun a b => on2 (gr_beta G a b)) (gr_sqrt G) (fun n k => on2 (gr_pick G n k)).

(* sample 23471-23478: the stream of the Distribution (the first) is given to the
   distribution itself, not to the distributions it consists of; these use the
   stream they were made with (the second) *)
Definition text_sample {St} (G : rng St) (d : dist) (s : St * St) : dres val * (St * St) :=
  match d with
  | DExpr _ _ _ | DMap _ _ | DBounded _ _ _ _ _ _ _ => sample (second G) d s
  | DPdf l _ false | DCum l _ =>
      let '(r, s1) := gr_random (first G) s in
      if Qle_bool r 0 then (DOk (VNum 0), s1) else
      (fix go (l : list (pval * Q)) : dres val * (St * St) :=
         match l with
         | [] => (DOk VNone, s1)
         | (x, c) :: l => if Qle_bool r c then sample_x (second G) x s1 else go l
         end) l
  | _ => sample (first G) d s
  end.
