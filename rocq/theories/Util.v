(** Utility functions. Modelled: _time_unit_lookup, _time_unit_factor, _i, interpolate, searchsorted, arange, linspace, interp,
    _set_name (salabim.py 24873-25138) and Environment.years … to_microseconds (14298-14621).
    Numbers are exact rationals (floats in the code). The versions without numpy are modelled (25023, 24990). *)
From Coq Require Import QArith Lqa List Bool Arith ZArith Lia String Ascii Decimal DecimalString.
From Verif Require Import Base.
Import ListNotations.
Open Scope Q_scope.

Inductive uexn := UValue | UAttr | UType | UIndex | UFuel.
Inductive ures (A : Type) := UOk (a : A) | UEr (e : uexn).
Arguments UOk {A} a. Arguments UEr {A} e.

(** *** time units *)
Inductive tunit := Years | Weeks | Days | Hours | Minutes | Seconds | Milliseconds | Microseconds.
(** the units as they are accepted: a unit or n/a *)
Definition tname := option tunit.
(** _time_unit_lookup 24873-24888; None: the value None for n/a *)
Definition tu_lookup (n : tname) : option Q :=
  match n with
  | Some Years => Some (1 / (86400 * 365)) | Some Weeks => Some (1 / (86400 * 7)) | Some Days => Some (1 / 86400) | Some Hours => Some (1 / 3600)
  | Some Minutes => Some (1 / 60) | Some Seconds => Some 1 | Some Milliseconds => Some 1000 | Some Microseconds => Some 1000000 | None => None
  end.
(** _time_unit_factor 24891-24899: [tu] is env._time_unit, [n] the time_unit argument (None: not given) *)
Definition tu_factor (tu : option Q) (n : option tname) : ures Q :=
  match n with
  | None => UOk 1
  | Some n => match tu with None => UEr UAttr | Some u => match tu_lookup n with None => UEr UType | Some v => UOk (u / v) end end
  end.
(** Environment.years … microseconds 14298-14456 *)
Definition from_unit (tu : option Q) (u : tunit) (t : Q) : ures Q :=
  match tu with
  | None => UEr UAttr
  | Some e => UOk (match u with
      | Years => t * 86400 * 365 * e | Weeks => t * 86400 * 7 * e | Days => t * 86400 * e | Hours => t * 3600 * e
      | Minutes => t * 60 * e | Seconds => t * e | Milliseconds => t * (1 # 1000) * e | Microseconds => t * (1 # 1000000) * e end)
  end.
(** Environment.to_time_unit 14458-14481 *)
Definition to_unit (tu : option Q) (n : tname) (t : Q) : ures Q :=
  match tu with
  | None => UEr UAttr
  | Some e => match tu_lookup n with None => UEr UType | Some v => UOk (t * v / e) end
  end.

(** *** interpolation *)
(** _i 24902-24907 (None: the value None) *)
Definition oeqb (a b : option Q) : bool := match a, b with Some x, Some y => Qeq_bool x y | None, None => true | _, _ => false end.
Definition mix (p : Q) (a b : option Q) : option Q :=
  if oeqb a b then a else match a, b with Some x, Some y => Some ((1 - p) * x + p * y) | _, _ => None end.
(** interpolate 24943-24961; V: numbers or tuples, with their equality and the last four lines *)
Definition interpolate {V} (eqv : V -> V -> bool) (mixv : Q -> V -> V -> V) (t : Q) (t0 t1 : xq) (v0 v1 : V) : V :=
  if eqv v0 v1 then v0 else
  let '(t0, t1, v0, v1) := if xltb t1 t0 then (t1, t0, v1, v0) else (t0, t1, v0, v1) in
  match t0, t1 with
  | _, PInf => v0
  | PInf, _ => v0
  | Fin a, Fin b => if Qeq_bool a b then v1 else if Qle_bool t a then v0 else if Qle_bool b t then v1 else mixv ((t - a) / (b - a)) v0 v1
  end.
(** numbers *)
Definition interpolate1 := interpolate oeqb mix.
(** tuples: equal if the same length and elements; zip *)
Fixpoint tupeqb (a b : list (option Q)) : bool := match a, b with [], [] => true | x :: a, y :: b => oeqb x y && tupeqb a b | _, _ => false end.
Fixpoint mixs (p : Q) (a b : list (option Q)) : list (option Q) := match a, b with x :: a, y :: b => mix p x y :: mixs p a b | _, _ => [] end.
Definition interpolate_tuple := interpolate tupeqb mixs.

(** *** bisection (bisect.bisect_left and bisect_right of the Python library): lo, hi = 0, len(a); while lo < hi: … *)
Fixpoint bisect (goright : Q -> bool) (fuel lo hi : nat) (a : list Q) : ures nat :=
  match fuel with
  | O => UEr UFuel
  | S k => if Nat.ltb lo hi then let mid := Nat.div2 (lo + hi) in
             match nth_error a mid with None => UEr UIndex | Some y => if goright y then bisect goright k (S mid) hi a else bisect goright k lo mid a end
           else UOk lo
  end.
Definition bisect_left (a : list Q) (x : Q) : ures nat := bisect (fun y => Qltb y x) (S (List.length a)) 0 (List.length a) a.
Definition bisect_right (a : list Q) (x : Q) : ures nat := bisect (fun y => negb (Qltb x y)) (S (List.length a)) 0 (List.length a) a.
(** searchsorted 24993-24997 *)
Inductive side := SLeft | SRight | SOther.
Definition searchsorted (a : list Q) (v : Q) (s : side) : ures nat := match s with SLeft => bisect_left a v | SRight => bisect_right a v | SOther => UEr UValue end.

(** *** ranges *)
(** arange 25026-25032, with fuel for the endless loop *)
Fixpoint arange_from (fuel : nat) (value stop step : Q) : ures (list Q) :=
  match fuel with
  | O => UEr UFuel
  | S k => if (Qltb 0 step && Qle_bool stop value) || (Qltb step 0 && Qle_bool value stop) then UOk []
           else match arange_from k (value + step) stop step with UOk l => UOk (value :: l) | e => e end
  end.
Definition arange (fuel : nat) (start stop step : Q) : ures (list Q) := arange_from fuel start stop step.
(** linspace 25057-25066; range(num) is empty for negative num *)
Definition linspace (start stop : Q) (num : Z) (endpoint : bool) : list Q :=
  if (num =? 0)%Z then [] else if (num =? 1)%Z then [start] else
  let step := if endpoint then (stop - start) / inject_Z (num - 1) else (stop - start) / inject_Z num in
  map (fun i => start + step * inject_Z (Z.of_nat i)) (seq 0 (Z.to_nat num)).
(** interp 25099-25119 for numbers; left and right optional *)
Definition interp (x : Q) (xp fp : list Q) (left right : option Q) : ures Q :=
  if negb (Nat.eqb (List.length xp) (List.length fp)) then UEr UValue else
  if Nat.eqb (List.length xp) 0 then UEr UValue else
  if Qltb x (hd 0 xp) then UOk (match left with None => hd 0 fp | Some l => l end) else
  if Qltb (last xp 0) x then UOk (match right with None => last fp 0 | Some r => r end) else
  if Nat.eqb (List.length xp) 1 then UOk (hd 0 fp) else
  match bisect_right xp x with
  | UEr e => UEr e
  | UOk i => if Nat.leb (List.length xp) i then UOk (last fp 0) else
      match i with
      | O => UEr UIndex   (* cannot happen (xp[-1] in Python) *)
      | S j => UOk (nth j fp 0 + (nth i fp 0 - nth j fp 0) * (x - nth j xp 0) / (nth i xp 0 - nth j xp 0))
      end
  end.

(** *** names *)
(** str(n) for a natural number *)
Definition digits (n : nat) : string := NilEmpty.string_of_uint (Nat.to_uint n).
Definition dot : string := ".". Definition comma : string := ",".
(** the last character, and all but the last *)
Fixpoint last_char (s : string) : option ascii := match s with EmptyString => None | String c EmptyString => Some c | String _ r => last_char r end.
Fixpoint but_last (s : string) : string := match s with EmptyString => EmptyString | String c EmptyString => EmptyString | String c r => String c (but_last r) end.
Definition ends_dot (s : string) : bool := match last_char s with Some c => Ascii.eqb c "." | None => false end.
Definition ends_comma (s : string) : bool := match last_char s with Some c => Ascii.eqb c "," | None => false end.
Fixpoint slook (k : string) (l : list (string * nat)) : option nat := match l with [] => None | (x, n) :: t => if String.eqb k x then Some n else slook k t end.
Definition sset (k : string) (n : nat) (l : list (string * nat)) : list (string * nat) := (k, n) :: l.
(** _set_name 25122-25138: [cls] is object_to_str(object).lower(); result: the new _nameserialize and _name *)
Definition set_name (cls : string) (name : option string) (ser : list (string * nat)) : list (string * nat) * string :=
  let name := match name with
              | None => (cls ++ dot)%string
              | Some n => if String.eqb n "" then (cls ++ dot)%string else if String.eqb n dot || String.eqb n comma then (cls ++ n)%string else n
              end in
  if ends_dot name || ends_comma name then
    let n := match slook name ser with Some k => S k | None => if ends_comma name then 1%nat else 0%nat end in
    (sset name n ser, (but_last name ++ dot ++ digits n)%string)
  else (ser, name).
