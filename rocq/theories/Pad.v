(** Pictures of a video that are not of the size of the video: resize_with_pad 25448-25469 (called in 12098). Sizes are positive integers; the
    quotients of sizes are exact here (floating point numbers in the code). How Pillow scales a picture is not modelled: a pixel of the scaled
    picture is given by its coordinates. *)
From Coq Require Import ZArith Bool.
Open Scope Z_scope.

(** round(n / d) of Python: to the nearest integer, halves to the even one *)
Definition round_div (n d : Z) : Z :=
  let q := n / d in let r := n mod d in
  if 2 * r <? d then q else if d <? 2 * r then q + 1 else if Z.even q then q else q + 1.
(** 25454-25463: the size of the scaled picture; target_height / target_width > im.height / im.width *)
Definition scaled_size (iw ih tw th : Z) : Z * Z :=
  if ih * tw <? th * iw then (tw, round_div (tw * ih) iw) else (round_div (th * iw) ih, th).
(** 25467 *)
Definition offset (iw ih tw th : Z) : Z * Z :=
  let (rw, rh) := scaled_size iw ih tw th in (round_div (tw - rw) 2, round_div (th - rh) 2).
(** a pixel of the result: of the original picture, of the scaled picture, or of the background *)
Inductive pixel := Orig (x y : Z) | Scaled (x y : Z) | Black.
Record picture := mkPicture { pw : Z; ph : Z; at_ : Z -> Z -> pixel }.
(** resize_with_pad; None is the ValueError of im.resize for a width or height of 0 *)
Definition resize_with_pad (iw ih tw th : Z) : option picture :=
  if (ih =? th) && (iw =? tw) then Some (mkPicture iw ih Orig)
  else
    let (rw, rh) := scaled_size iw ih tw th in let (ox, oy) := offset iw ih tw th in
    if (rw <=? 0) || (rh <=? 0) then None
    else Some (mkPicture tw th (fun x y => if (ox <=? x) && (x <? ox + rw) && (oy <=? y) && (y <? oy + rh) then Scaled (x - ox) (y - oy) else Black)).
