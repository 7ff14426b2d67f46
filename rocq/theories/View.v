(** Zooming and panning of the 2D animation, screen and user coordinates, and anchors. Numbers are rational. Not modelled: 3D, Pythonista
    (so retina is 1), the rounding of positions to pixels and what else happens in a tick. Mouse events come between the ticks, as tkinter
    handles them in its main loop, whereas animation_pre_tick and animation_post_tick are called in one go (13491-13556). *)
From Coq Require Import QArith ZArith List.
Import ListNotations.
Open Scope Q_scope.

(** The attributes of an environment, 10605 and 10645-10651; w, h are _width, _height; g are lastx, lasty, lastx0, lasty0; o are the _org ones *)
Record view := mkView {
  w : Q; h : Q; zf : Q (* _zoom_factor *);
  x0 : Q; x1 : Q; y0 : Q; y1 : Q; scale : Q;
  x0z : Q; x1z : Q; y0z : Q; y1z : Q; scalez : Q;
  gx : Q; gy : Q; gx0 : Q; gy0 : Q;
  ox0 : Q; ox1 : Q; oy0 : Q; oy1 : Q; oscale : Q }.

Definition set_world (v : view) (a b c d s : Q) : view :=
  mkView (w v) (h v) (zf v) a b c d s (x0z v) (x1z v) (y0z v) (y1z v) (scalez v) (gx v) (gy v) (gx0 v) (gy0 v) (ox0 v) (ox1 v) (oy0 v) (oy1 v) (oscale v).
Definition set_zoom (v : view) (a b c d s : Q) : view :=
  mkView (w v) (h v) (zf v) (x0 v) (x1 v) (y0 v) (y1 v) (scale v) a b c d s (gx v) (gy v) (gx0 v) (gy0 v) (ox0 v) (ox1 v) (oy0 v) (oy1 v) (oscale v).
Definition set_grab (v : view) (a b c d : Q) : view :=
  mkView (w v) (h v) (zf v) (x0 v) (x1 v) (y0 v) (y1 v) (scale v) (x0z v) (x1z v) (y0z v) (y1z v) (scalez v) a b c d (ox0 v) (ox1 v) (oy0 v) (oy1 v) (oscale v).
Definition set_org (v : view) (a b c d s : Q) : view :=
  mkView (w v) (h v) (zf v) (x0 v) (x1 v) (y0 v) (y1 v) (scale v) (x0z v) (x1z v) (y0z v) (y1z v) (scalez v) (gx v) (gy v) (gx0 v) (gy0 v) a b c d s.

(** animation_parameters 11687-11700 and 11801-11802 *)
Definition params (v : view) (width height a b c : Q) : view :=
  let s := width / (b - a) in
  mkView width height (zf v) a b c (c + height / s) s (x0z v) (x1z v) (y0z v) (y1z v) (scalez v) (gx v) (gy v) (gx0 v) (gy0 v) (ox0 v) (ox1 v) (oy0 v) (oy1 v) (oscale v).
(** the start of do_simulate_and_animate 13425-13430 *)
Definition start (v : view) : view := set_zoom v (x0 v) (x1 v) (y0 v) (y1 v) (scale v).
(** unzoom 11356-11361 *)
Definition unzoom (v : view) : view := set_zoom v (x0 v) (x1 v) (y0 v) (y1 v) (scale v).
(** one round of the loop of on_mousewheel 11322-11326 *)
Definition zoom (f x y : Q) (v : view) : view :=
  set_zoom v (x - (x - x0z v) * f) (x - (x - x1z v) * f) (y - (y - y0z v) * f) (y - (y - y1z v) * f) (scalez v / f).
Fixpoint zooms (n : nat) (f x y : Q) (v : view) : view := match n with O => v | S n => zooms n f x y (zoom f x y v) end.
(** on_mousewheel 11294-11326; my is measured upwards, 11296 *)
Definition wheel (delta : Z) (mx my : Q) (v : view) : view :=
  let x := mx / scale v + x0z v in let y := my / scale v + y0z v in
  zooms (Z.abs_nat delta) (if (delta <? 0)%Z then zf v else 1 / zf v) x y v.
(** start_pan 11336-11341; ey is measured downwards *)
Definition press (ex ey : Q) (v : view) : view := set_grab v ex ey (x0z v) (y0z v).
(** do_pan 11343-11351 *)
Definition drag (ex ey : Q) (v : view) : view :=
  let dx := - ((ex - gx v) / scale v) in let dy := (ey - gy v) / scale v in
  let a := gx0 v + dx in let c := gy0 v + dy in
  set_zoom v a (a + (x1 v - x0 v)) c (c + (y1 v - y0 v)) (scalez v).
(** animation_pre_tick 10737-10746 *)
Definition pre_tick (v : view) : view :=
  let v := set_org v (x0 v) (x1 v) (y0 v) (y1 v) (scale v) in set_world v (x0z v) (x1z v) (y0z v) (y1z v) (scalez v).
(** animation_post_tick 10766-10770 *)
Definition post_tick (v : view) : view := set_world v (ox0 v) (ox1 v) (oy0 v) (oy1 v) (oscale v).

(** user_to_screen_coordinates_x, _y, _size 12297-12340 *)
Definition to_screen_x (v : view) (u : Q) : Q := (u - x0 v) * scale v.
Definition to_screen_y (v : view) (u : Q) : Q := (u - y0 v) * scale v.
Definition to_screen_size (v : view) (u : Q) : Q := u * scale v.
(** screen_to_user_coordinates_x, _y, _size 12342-12385 *)
Definition to_user_x (v : view) (s : Q) : Q := x0 v + s / scale v.
Definition to_user_y (v : view) (s : Q) : Q := y0 v + s / scale v.
Definition to_user_size (v : view) (s : Q) : Q := s / scale v.

(** xy_anchor_to_x 13930-13954 and xy_anchor_to_y 13956-13981; AEmpty is '' *)
Inductive anchor := ANW | AN | ANE | AW | AC | AE | ASW | AS | ASE | AEmpty.
Definition anchor_x (v : view) (a : anchor) (screen : bool) : Q :=
  match a with
  | ANW | AW | ASW => if screen then 0 else ox0 v
  | AN | AC | AS => if screen then w v / 2 else (ox0 v + ox1 v) / 2
  | ANE | AE | ASE | AEmpty => if screen then w v else ox1 v
  end.
Definition anchor_y (v : view) (a : anchor) (screen : bool) : Q :=
  match a with
  | ANW | AN | ANE => if screen then h v else oy1 v
  | AW | AC | AE => if screen then h v / 2 else (oy0 v + oy1 v) / 2
  | ASW | AS | ASE | AEmpty => if screen then 0 else oy0 v
  end.

(** What the user of the animation and the animation loop do *)
Inductive op := Tick | Wheel (delta : Z) (mx my : Q) | Press (ex ey : Q) | Drag (ex ey : Q) | Unzoom.
Definition do (o : op) (v : view) : view :=
  match o with
  | Tick => post_tick (pre_tick v) | Wheel d mx my => wheel d mx my v | Press ex ey => press ex ey v | Drag ex ey => drag ex ey v | Unzoom => unzoom v
  end.
Fixpoint run (l : list op) (v : view) : view := match l with [] => v | o :: l => run l (do o v) end.
