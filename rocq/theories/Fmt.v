(** Printing of numbers and texts in columns: pad 25210-25214, rpad 25217-25218, fn 25228-25235, with the formats of Python
    that fn uses: d, s, f and e (for e only of numbers of at least 1, as in fn; f and e round half to even on the exact value).
    length - d - 3 is not negative in all calls; 10 ** (length - d - 1) is exact (it is an int). A float is nan, inf, -inf or its exact value. *)
From Coq Require Import QArith Qabs Qround ZArith List Ascii Bool.
Import ListNotations.
Open Scope Z_scope.

Definition text := list ascii.
Inductive num := Nan | PInf | MInf | Val (q : Q).
Definition spaces (n : nat) : text := repeat " "%char n.
Definition rjust (n : nat) (t : text) : text := spaces (n - length t) ++ t.
Definition ljust (n : nat) (t : text) : text := t ++ spaces (n - length t).
(** pad, for n >= 0, and rpad *)
Definition pad (t : text) (n : nat) : text := if Nat.leb n 0 then [] else firstn n (ljust n t).
Definition rpad (t : text) (n : nat) : text := firstn n (rjust n t).

(** formats of Python *)
Definition dc (d : Z) : ascii := ascii_of_nat (48 + Z.to_nat d).
Definition pw (n : nat) : Z := 10 ^ Z.of_nat n.
Fixpoint digits_loop (fuel : nat) (n : Z) : list Z := match fuel with O => [] | S f => if n <? 10 then [n] else digits_loop f (n / 10) ++ [n mod 10] end.
Definition digits (n : Z) : list Z := digits_loop (S (Z.to_nat (Z.log2 n))) n.
Fixpoint fdigits (k : nat) (n : Z) : list Z := match k with O => [] | S k => fdigits k (n / 10) ++ [n mod 10] end.
Definition frac (k : nat) (n : Z) : text := match k with O => [] | _ => "."%char :: map dc (fdigits k n) end.
(** round half to even *)
Definition rhe (q : Q) : Z :=
  let f := Qfloor q in
  match Qcompare (q - inject_Z f) (1 # 2) with Lt => f | Gt => f + 1 | Eq => if Z.even f then f else f + 1 end.
Definition str_int (n : Z) : text := (if n <? 0 then ["-"%char] else []) ++ map dc (digits (Z.abs n)).
Definition fixed (d : nat) (q : Q) : text :=
  let n := rhe (Qabs.Qabs q * inject_Z (pw d)) in
  (if Qle_bool 0 q then [] else ["-"%char]) ++ map dc (digits (n / pw d)) ++ frac d (n mod pw d).
(** the exponent of a number that is at least 1 *)
Fixpoint expon_loop (fuel : nat) (q : Q) : nat := match fuel with O => 0%nat | S f => if Qle_bool (inject_Z 10) q then S (expon_loop f (q / inject_Z 10)) else 0%nat end.
Definition expon (q : Q) : nat := expon_loop (S (Z.to_nat (Z.log2 (Qfloor q)))) q.
Definition expo (p : nat) (q : Q) : text :=
  let e := expon q in
  let m := rhe (q / inject_Z (pw e) * inject_Z (pw p)) in
  let '(m, e) := if m =? pw (S p) then (pw p, S e) else (m, e) in
  map dc (digits (m / pw p)) ++ frac p (m mod pw p) ++ ["e"; "+"]%char ++ (if Nat.ltb e 10 then [dc 0] else []) ++ map dc (digits (Z.of_nat e)).
(** fn; None is OverflowError *)
Definition is_int (q : Q) : bool := Qeq_bool q (inject_Z (Qfloor q)).
Definition fn (x : num) (len d : nat) : option text :=
  match x with
  | Nan => Some (spaces len)
  | PInf => Some (rjust len ["i"; "n"; "f"]%char)
  | MInf => None
  | Val q =>
    Some (if Qle_bool (inject_Z (pw (len - d - 1))) q then rjust len (expo (len - d - 3) q)
          else if is_int q then rjust (len - d - 1) (str_int (Qfloor q)) ++ spaces (d + 1)
          else rjust len (fixed d q))
  end.
