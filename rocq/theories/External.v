(** External distributions 23215-23265. The distribution (a function, or an object of scipy) is given by what its calls return, one
    after the other: a value, or a numpy array of values. Its mean is a function of the positional and of the keyword arguments.
    Values are rational numbers; arrays of more dimensions are not modelled. *)
From Coq Require Import QArith List.
Import ListNotations.
Open Scope Q_scope.

Inductive reply := One (v : Q) | Array (l : list Q).
Record dis := mkDis { draw : nat -> reply; law_mean : list Q -> list Q -> Q; is_scipy : bool }.
Record external := mkExternal { calls : nat; samples : list Q; factor : Q (* time_unit_factor *); args : list Q; kwargs : list Q (* without size and random_state *) }.
Definition init (f : Q) (a k : list Q) : external := mkExternal 0 [] f a k.
Definition tolist (r : reply) : list Q := match r with One v => [v] | Array l => l end.
(** list.pop(): the last *)
Definition pop (l : list Q) : option (Q * list Q) := match rev l with [] => None | v :: r => Some (v, rev r) end.
(** sample; None is IndexError *)
Definition sample (d : dis) (e : external) : option (Q * external) :=
  let e := match samples e with [] => mkExternal (S (calls e)) (tolist (draw d (calls e))) (factor e) (args e) (kwargs e) | _ => e end in
  match pop (samples e) with Some (v, r) => Some (v * factor e, mkExternal (calls e) r (factor e) (args e) (kwargs e)) | None => None end.
Fixpoint take (d : dis) (n : nat) (e : external) : option (list Q * external) :=
  match n with
  | O => Some ([], e)
  | S n => match sample d e with Some (v, e) => match take d n e with Some (l, e) => Some (v :: l, e) | None => None end | None => None end
  end.
(** 23237 and 23265; None is nan *)
Definition mean (d : dis) (e : external) : option Q := if is_scipy d then Some (law_mean d [] (kwargs e) * factor e) else None.
