(** ItemFile, salabim.py 172-334. Modelled: _nextread (294-334) and read_item (283-292), for a text that is given (a file that has been opened, or the filename argument if it contains a newline, 226-229).
    Characters are those of Ascii. The readers for int, float and bool (240-281) use int() and float() of Python, which are not modelled; read_item_bool is given with float() as a parameter. *)
From Coq Require Import List Bool Ascii String Arith.
Import ListNotations.

Definition nl : ascii := "010"%char.
Definition cr : ascii := "013"%char.
Definition tab : ascii := "009"%char.
Definition blank : ascii := " "%char.
Definition hash : ascii := "#"%char.
Definition lbrace : ascii := "{"%char.
Definition rbrace : ascii := "}"%char.
Definition quote1 : ascii := "'"%char.
Definition quote2 : ascii := "034"%char.
Definition isc (a b : ascii) : bool := if ascii_dec a b then true else false.

(** the lines of a text ("for line in self.open_file" 298), here without the newline at their end, which is removed anyhow (302) *)
Fixpoint lines (t : list ascii) : list (list ascii) :=
  match t with
  | [] => [[]]
  | c :: t => if isc c nl then [] :: lines t else match lines t with l :: ls => (c :: l) :: ls | [] => [[c]] end
  end.
(** mode 299: ".", one of the quotes, or "{" *)
Inductive mode := MDot | MQuote (q : ascii) | MBrace.
Definition is_quote (c : ascii) : bool := isc c quote1 || isc c quote2.
(** "if result: yield result" *)
Definition flush (r : list ascii) : list (list ascii) := match r with [] => [] | _ => [r] end.
(** the loop over the characters of a line 301-334; the items that it yields *)
Fixpoint scan (m : mode) (r : list ascii) (line : list ascii) : list (list ascii) :=
  match line with
  | [] => flush r
  | c :: line =>
    if isc c cr || isc c nl then scan m r line else
    match m with
    | MQuote q => if isc c q then r :: scan MDot [] line else scan m (r ++ [c]) line
    | MBrace => if isc c rbrace then scan MDot r line else scan m r line
    | MDot => if isc c hash then flush r
              else if is_quote c then flush r ++ scan (MQuote c) [] line
              else if isc c lbrace then flush r ++ scan MBrace [] line
              else if isc c blank || isc c tab then flush r ++ scan MDot [] line
              else scan MDot (r ++ [c]) line
    end
  end.
(** _nextread 294-334: all items *)
Definition items (t : list ascii) : list (list ascii) := flat_map (scan MDot []) (lines t).
(** read_item 283-292: the state is the list of items that are still to come; None: EOFError *)
Definition read_item (st : list (list ascii)) : option (list ascii) * list (list ascii) := match st with [] => (None, []) | x :: st => (Some x, st) end.
(** n calls of read_item *)
Fixpoint read_items (n : nat) (st : list (list ascii)) : list (option (list ascii)) := match n with O => [] | S n => let '(x, st1) := read_item st in x :: read_items n st1 end.
(** read_item_bool 257-281; strip_lower: .strip().lower(), zero: whether float() accepts the text and gives 0 *)
Definition as_bool (strip_lower : list ascii -> list ascii) (zero : list ascii -> bool) (x : list ascii) : bool :=
  let r := strip_lower x in
  if list_eq_dec ascii_dec r (list_ascii_of_string "false") then false else if zero r then false else match r with [] => false | _ => true end.
