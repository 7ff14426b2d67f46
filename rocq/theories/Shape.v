(** Drawing of lines, polygons, rectangles and circles: Animate2dBase.make_pil_image 15470-15707 for these types, with real numbers.
    Pixels and int() of sizes and places are not modelled, colours neither. The image is put with its lower left corner at
    (_image_x, _image_y), 13510 and 12077; in the image y goes down. *)
From Coq Require Import Reals List Lra.
Import ListNotations.
Open Scope R_scope.

Record drawing := mkDrawing { screen : bool (* screen_coordinates *); scale : R; x0 : R; y0 : R; dx : R; dy : R (* x, y *); offsetx : R; offsety : R; angle : R; lw : R (* linewidth *) }.
Definition point := (R * R)%type.
Definition rad (a : R) : R := a * PI / 180. (* math.radians *)
(** 15472-15474, 15479-15482, 15490-15495, 15634-15636 *)
Definition scaled (e : drawing) (v : R) : R := if screen e then v else v * scale e.
Definition linewidth (e : drawing) : R := if screen e then lw e else lw e * scale e.
Definition qx (e : drawing) : R := if screen e then dx e else (dx e - x0 e) * scale e.
Definition qy (e : drawing) : R := if screen e then dy e else (dy e - y0 e) * scale e.
(** 15487-15488, 15637-15638 *)
Definition turned (e : drawing) (p : point) : point :=
  let px := scaled e (fst p) in let py := scaled e (snd p) in
  (px * cos (rad (angle e)) - py * sin (rad (angle e)), px * sin (rad (angle e)) + py * cos (rad (angle e))).
(** 15622-15657: least and greatest, 0 if there are no points *)
Definition minl (l : list R) : R := match l with [] => 0 | a :: l => fold_left Rmin l a end.
Definition maxl (l : list R) : R := match l with [] => 0 | a :: l => fold_left Rmax l a end.
Definition minrx (e : drawing) (p : list point) : R := minl (map (fun q => fst (turned e q)) p).
Definition maxrx (e : drawing) (p : list point) : R := maxl (map (fun q => fst (turned e q)) p).
Definition minry (e : drawing) (p : list point) : R := minl (map (fun q => snd (turned e q)) p).
Definition maxry (e : drawing) (p : list point) : R := maxl (map (fun q => snd (turned e q)) p).
(** 15659-15662: the points in the image *)
Definition rscaled (e : drawing) (p : list point) : list point :=
  map (fun q => (fst (turned e q) - minrx e p + linewidth e, maxry e p - snd (turned e q) + linewidth e)) p.
(** 15675: the size of the image *)
Definition image_width (e : drawing) (p : list point) : R := maxrx e p - minrx e p + 2 * linewidth e.
Definition image_height (e : drawing) (p : list point) : R := maxry e p - minry e p + 2 * linewidth e.
(** 15706-15707 *)
Definition image_x (e : drawing) (p : list point) : R := qx e + minrx e p - linewidth e + (scaled e (offsetx e) * cos (rad (angle e)) - scaled e (offsety e) * sin (rad (angle e))).
Definition image_y (e : drawing) (p : list point) : R := qy e + minry e p - linewidth e + (scaled e (offsetx e) * sin (rad (angle e)) + scaled e (offsety e) * cos (rad (angle e))).
(** where the points come on the screen (y up) *)
Definition on_screen (e : drawing) (p : list point) : list point := map (fun q => (image_x e p + fst q, image_y e p + (image_height e p - snd q))) (rscaled e p).
(** 15588-15591: a polygon is closed, on the list of coordinates *)
Definition closed (p : list R) : list R := if list_eq_dec Req_EM_T (firstn 2 p) (firstn 2 (skipn (length p - 3) p)) then p else p ++ firstn 2 p.
(** 15543: the points of a rectangle *)
Definition rectangle (a b c d : R) : list point := [(a, b); (c, b); (c, d); (a, d); (a, b)].
(** 15545-15548: the radius of the corners of a rectangle (before the points are scaled) *)
Definition corner (e : drawing) (r w h : R) : R := Rmin (Rmin (scaled e r) (Rabs w / 2)) (Rabs h / 2).
(** 15598-15602: the step of the angle of a circle; None is ZeroDivisionError *)
Definition circle_step (e : drawing) (r0 r1 : R) : option R :=
  let nsteps := Int_part (sqrt (Rmax (scaled e r0) (scaled e r1)) * 6) in
  if Z.eq_dec nsteps 0 then None else Some (360 / IZR nsteps).
(** 15605-15618: the angles; None is out of fuel *)
Fixpoint arc (fuel : nat) (a a1 step : R) : option (list R) :=
  match fuel with
  | O => None
  | S f => if Rle_lt_dec a1 (a + step) then Some [a; a1] else match arc f (a + step) a1 step with Some l => Some (a :: l) | None => None end
  end.
Definition circle_points (r0 r1 : R) (angles : list R) : list point := [(0, 0)] ++ map (fun a => (r0 * cos (rad a), r1 * sin (rad a))) angles ++ [(0, 0)].
(** 15472-15474 and 15741-15742: the offset of an image is scaled twice *)
Definition image_offset (e : drawing) (v : R) : R := scaled e (scaled e v).
(** 15500-15530: what is compared to know whether the image has to be made again (with the points; colours left out) *)
Definition ident (e : drawing) (p : list point) : list point * R * R * bool := (p, linewidth e, angle e, screen e).
(** regular_polygon 27427-27442 for number_of_sides >= 3 *)
Fixpoint corners (k : nat) (radius sint cost x y : R) : list point :=
  match k with
  | O => []
  | S k => let x' := x * cost - y * sint in let y' := x * sint + y * cost in (x' + radius, y' + radius) :: corners k radius sint cost x' y'
  end.
Definition regular_polygon (radius : R) (n : nat) (initial : R) : list point :=
  let tangle := 2 * PI / INR n in corners n radius (sin tangle) (cos tangle) (radius * cos (rad initial)) (radius * sin (rad initial)).
(** images and texts 15779-15806, 15932-15954: the centre of the (turned) image; w and h are the size before turning; extra is 0 for images and 0.1 * fontsize for texts *)
Inductive anchor := A_ne | A_n | A_nw | A_e | A_c | A_w | A_se | A_s | A_sw.
Definition anchor_to_dis (a : anchor) : R * R :=
  match a with A_ne => (-(1 / 2), -(1 / 2)) | A_n => (0, -(1 / 2)) | A_nw => (1 / 2, -(1 / 2)) | A_e => (-(1 / 2), 0) | A_c => (0, 0) | A_w => (1 / 2, 0) | A_se => (-(1 / 2), 1 / 2) | A_s => (0, 1 / 2) | A_sw => (1 / 2, 1 / 2) end.
Definition hang (e : drawing) (a : anchor) (w h offx offy extra : R) : point :=
  let ddx := fst (anchor_to_dis a) * w + offx - extra in
  let ddy := snd (anchor_to_dis a) * h + offy in
  (qx e + (ddx * cos (rad (angle e)) - ddy * sin (rad (angle e))), qy e + (ddx * sin (rad (angle e)) + ddy * cos (rad (angle e)))).
Definition image_center (e : drawing) (a : anchor) (w h : R) : point := hang e a w h (image_offset e (offsetx e)) (image_offset e (offsety e)) 0.
Definition text_center (e : drawing) (a : anchor) (w h fontsize : R) : point := hang e a w h (scaled e (offsetx e)) (scaled e (offsety e)) (fontsize / 10).
