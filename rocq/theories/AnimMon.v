(** AnimateMonitor: t_to_x 3882-3890, value_to_y 3892-3901, line 3903-3926, now_line 3928-3932, the part of update for the
    scales and the labels 3939-3972, show, remove and is_removed 4023-4055.
    t is the time as the user sees it; the times of the monitor (_t, start) and lastt are without offset. Values are any type;
    vertical_map may fail (ValueError, TypeError). Not modelled: positions, colours and fonts, which are passed on. *)
From Coq Require Import QArith Qminmax List Bool.
Import ListNotations.
Open Scope Q_scope.

Section Values.
Variable V : Type.
Record monitor := mkMonitor { entries : list (Q * V) (* zip of _t and _x *); start : Q; is_off : V -> bool; zero : V (* the number 0 *) }.
Record animate := mkAnimate { mon : monitor; offset : Q; width : Q; height : Q; hscale : Q; vscale : Q; voffset : Q; vmap : V -> option Q; as_level : bool }.
(** update 3952-3954 *)
Definition width_div (a : animate) : Q := width a / hscale a.
Definition displacement (a : animate) (t : Q) : Q := width_div a - (t - start (mon a)).
(** t_to_x, with the value of done *)
Definition t_to_x (a : animate) (now t : Q) : Q * bool :=
  let t := t - start (mon a) in
  let d := displacement a now in
  let '(t, done) := if Qle_bool 0 d then (t, false) else let t := t + d in if Qle_bool 0 t then (t, false) else (0, true) in
  (Qmax 0 (Qmin (width a) (t * hscale a)), done).
Definition value_to_y (a : animate) (v : V) : Q :=
  let y := if is_off (mon a) v then 0 else match vmap a v with Some q => q | None => 0 end in
  Qmax 0 (Qmin (height a) (y * vscale a + voffset a)).
(** the loop 3914-3925, over the reversed lists *)
Fixpoint line_loop (a : animate) (now lastt : Q) (es : list (Q * V)) : list (Q * Q) :=
  match es with
  | [] => []
  | (t, v) :: es =>
    let (x, d1) := t_to_x a now t in
    let (xl, d0) := t_to_x a now lastt in
    let done := if as_level a then d0 || d1 else d1 in
    (if as_level a then [(xl, value_to_y a v)] else []) ++
    (if done && negb (as_level a) then [] else [(x, value_to_y a v)]) ++
    (if done then [] else line_loop a now t es)
  end.
Definition line (a : animate) (t : Q) : list (Q * Q) :=
  let value := match rev (entries (mon a)) with (_, v) :: _ => v | [] => zero (mon a) end in
  let lastt := t + offset a in
  (if as_level a then [(fst (t_to_x a t lastt), value_to_y a value)] else []) ++ line_loop a t lastt (rev (entries (mon a))).
Definition now_line (a : animate) (t : Q) : (Q * Q) * (Q * Q) :=
  let u := t - (start (mon a) - offset a) in
  let u := Qmin u (width_div a) in
  let x := u * hscale a in ((x, 0), (x, height a)).
(** 3961-3972: the labels with their heights *)
Definition labels (T : Type) (a : animate) (l : list (V * T)) : list (T * Q) :=
  flat_map (fun p => match vmap a (fst p) with
                     | Some q => let y := q * vscale a + voffset a in if Qle_bool 0 y && Qle_bool y (height a) then [(snd p, y)] else []
                     | None => []
                     end) l.
End Values.
(** show 4034, remove 4052, is_removed 4055: sys_objects is the set of objects *)
Definition show (o : nat) (objs : list nat) : list nat := if existsb (Nat.eqb o) objs then objs else o :: objs.
Definition remove (o : nat) (objs : list nat) : list nat := filter (fun x => negb (Nat.eqb x o)) objs.
Definition is_removed (o : nat) (objs : list nat) : bool := existsb (Nat.eqb o) objs.
