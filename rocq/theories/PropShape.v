(** C90: shapes are drawn at their place, at the right size and under the right angle. *)
From Coq Require Import Reals List Lra Lia.
From Verif Require Import Shape.
Import ListNotations.
Open Scope R_scope.

(** ** What should be drawn *)
(** from user coordinates to the screen: the origin of the shape, and from there the point and the offset, turned and scaled *)
Definition unit_of (e : drawing) : R := if screen e then 1 else scale e.
Definition origin (e : drawing) : point := if screen e then (dx e, dy e) else ((dx e - x0 e) * scale e, (dy e - y0 e) * scale e).
Definition turn (a : R) (p : point) : point := (fst p * cos (a * PI / 180) - snd p * sin (a * PI / 180), fst p * sin (a * PI / 180) + snd p * cos (a * PI / 180)).
Definition place (e : drawing) (p : point) : point :=
  let q := turn (angle e) (unit_of e * (fst p + offsetx e), unit_of e * (snd p + offsety e)) in (fst (origin e) + fst q, snd (origin e) + snd q).
Definition dist2 (p q : point) : R := Rsqr (fst p - fst q) + Rsqr (snd p - snd q).

(** ** Proofs *)
Lemma scaled_unit : forall e v, scaled e v = unit_of e * v. Proof. intros e v. unfold scaled, unit_of. destruct (screen e); ring. Qed.
Lemma minl_le : forall l x, In x l -> minl l <= x.
Proof.
  assert (G : forall l a, fold_left Rmin l a <= a /\ forall x, In x l -> fold_left Rmin l a <= x).
  { induction l as [|b l IH]; intros a; [split; [cbn; lra | intros x []]|]. cbn [fold_left]. destruct (IH (Rmin a b)) as (A & B). pose proof (Rmin_l a b). pose proof (Rmin_r a b). split; [lra|]. intros x [<-|I]; [lra | auto]. }
  intros [|a l] x I; [destruct I|]. destruct (G l a) as (A & B). destruct I as [<-|I]; [exact A | apply B; exact I].
Qed.
Lemma maxl_ge : forall l x, In x l -> x <= maxl l.
Proof.
  assert (G : forall l a, a <= fold_left Rmax l a /\ forall x, In x l -> x <= fold_left Rmax l a).
  { induction l as [|b l IH]; intros a; [split; [cbn; lra | intros x []]|]. cbn [fold_left]. destruct (IH (Rmax a b)) as (A & B). pose proof (Rmax_l a b). pose proof (Rmax_r a b). split; [lra|]. intros x [<-|I]; [lra | auto]. }
  intros [|a l] x I; [destruct I|]. destruct (G l a) as (A & B). destruct I as [<-|I]; [exact A | apply B; exact I].
Qed.

(** ** Theorems *)
(** each point of a line, polygon, rectangle or circle comes at its place on the screen *)
Theorem C90_place : forall e p, on_screen e p = map (place e) p.
Proof.
  intros e p. unfold on_screen, rscaled. rewrite map_map. apply map_ext. intros (u, v). unfold place, turn, image_x, image_y, image_height, turned, origin, qx, qy, rad. rewrite !scaled_unit. cbn [fst snd]. destruct (screen e); cbn [fst snd]; f_equal; ring.
Qed.
(** no shape is deformed: distances are multiplied by the scale *)
Theorem C90_rigid : forall e p q, dist2 (place e p) (place e q) = Rsqr (unit_of e) * dist2 p q.
Proof.
  intros e (a, b) (c, d). unfold dist2, place, turn. cbn [fst snd]. pose proof (sin2_cos2 (angle e * PI / 180)) as T. set (co := cos (angle e * PI / 180)) in *. set (si := sin (angle e * PI / 180)) in *. set (s := unit_of e) in *. unfold Rsqr in *.
  transitivity (s * s * ((a - c) * (a - c) + (b - d) * (b - d)) * (si * si + co * co)); [ring | rewrite T; ring].
Qed.
(** without an angle: the point and the offset are added to the place of the shape *)
Theorem C90_upright : forall e p, angle e = 0 -> place e p = (fst (origin e) + unit_of e * (fst p + offsetx e), snd (origin e) + unit_of e * (snd p + offsety e)).
Proof. intros e p H. unfold place, turn. rewrite H. replace (0 * PI / 180) with 0 by lra. rewrite cos_0, sin_0. cbn [fst snd]. f_equal; ring. Qed.
(** everything is within the image, the linewidth included *)
Theorem C90_inside : forall e p q, 0 <= linewidth e -> In q (rscaled e p) -> linewidth e <= fst q <= image_width e p - linewidth e /\ linewidth e <= snd q <= image_height e p - linewidth e.
Proof.
  intros e p q L I. unfold rscaled in I. apply in_map_iff in I. destruct I as (r & <- & I). cbn [fst snd]. unfold image_width, image_height.
  assert (A : minrx e p <= fst (turned e r)) by (apply minl_le; apply in_map_iff; exists r; auto). assert (B : fst (turned e r) <= maxrx e p) by (apply maxl_ge; apply in_map_iff; exists r; auto).
  assert (C : minry e p <= snd (turned e r)) by (apply minl_le; apply in_map_iff; exists r; auto). assert (D : snd (turned e r) <= maxry e p) by (apply maxl_ge; apply in_map_iff; exists r; auto). lra.
Qed.
(** the points of the arc of a circle are all at the distance of the radius from the centre *)
Theorem C90_circle : forall e r angles k, (k < length angles)%nat -> dist2 (nth (S k) (on_screen e (circle_points r r angles)) (0, 0)) (place e (0, 0)) = Rsqr (unit_of e * r).
Proof.
  intros e r angles k K. rewrite C90_place. unfold circle_points. rewrite (nth_indep _ (0, 0) (place e (0, 0))) by (rewrite map_length; cbn [app length]; rewrite app_length, map_length; lia). rewrite map_nth. cbn [app nth].
  rewrite app_nth1 by (rewrite map_length; exact K). rewrite (nth_indep _ (0, 0) ((fun a => (r * cos (rad a), r * sin (rad a))) 0)) by (rewrite map_length; exact K). rewrite (map_nth (fun a => (r * cos (rad a), r * sin (rad a)))). cbv beta.
  rewrite C90_rigid. unfold dist2. cbn [fst snd]. set (t := rad (nth k angles 0)). pose proof (sin2_cos2 t) as T. unfold Rsqr in *. transitivity (unit_of e * unit_of e * (r * r * (sin t * sin t + cos t * cos t))); [ring | rewrite T; ring].
Qed.
(** with two radii they are on the ellipse, that is turned as a whole *)
Theorem C90_ellipse : forall e r0 r1 angles k, (k < length angles)%nat -> exists u v, nth (S k) (on_screen e (circle_points r0 r1 angles)) (0, 0) = place e (u, v) /\ Rsqr (u * r1) + Rsqr (v * r0) = Rsqr (r0 * r1) /\ u = r0 * cos (nth k angles 0 * PI / 180).
Proof.
  intros e r0 r1 angles k K. exists (r0 * cos (rad (nth k angles 0))), (r1 * sin (rad (nth k angles 0))). split; [|split; [|reflexivity]].
  - rewrite C90_place. unfold circle_points. rewrite (nth_indep _ (0, 0) (place e (0, 0))) by (rewrite map_length; cbn [app length]; rewrite app_length, map_length; lia). rewrite map_nth. cbn [app nth].
    rewrite app_nth1 by (rewrite map_length; exact K). rewrite (nth_indep _ (0, 0) ((fun a => (r0 * cos (rad a), r1 * sin (rad a))) 0)) by (rewrite map_length; exact K). rewrite (map_nth (fun a => (r0 * cos (rad a), r1 * sin (rad a)))). reflexivity.
  - set (t := rad (nth k angles 0)). pose proof (sin2_cos2 t) as T. unfold Rsqr in *. transitivity (r0 * r1 * (r0 * r1) * (sin t * sin t + cos t * cos t)); [ring | rewrite T; ring].
Qed.
(** the angles of an arc go from the first to the last, with steps that are not too large; the loop ends *)
Fixpoint small_steps (step : R) (l : list R) : Prop := match l with a :: ((b :: _) as l') => a <= b /\ b - a <= step /\ small_steps step l' | _ => True end.
Theorem C90_arc : forall a a1 step, a <= a1 -> 0 < step -> exists n l, (forall fuel, (n <= fuel)%nat -> arc fuel a a1 step = Some l) /\ hd 0 l = a /\ last l 0 = a1 /\ small_steps step l /\ (2 <= length l)%nat.
Proof.
  intros a a1 step L SP.
  assert (G : forall n a, a <= a1 -> a1 - a <= INR n * step -> exists l, (forall fuel, (S n <= fuel)%nat -> arc fuel a a1 step = Some l) /\ hd 0 l = a /\ last l 0 = a1 /\ small_steps step l /\ (2 <= length l)%nat).
  { induction n as [|n IH]; intros b B H.
    - cbn [INR] in H. exists [b; a1]. split; [intros [|f] F; [lia|]; cbn [arc]; destruct (Rle_lt_dec a1 (b + step)); [reflexivity | lra]|]. cbn. repeat split; lra || lia.
    - rewrite S_INR in H. destruct (Rle_lt_dec a1 (b + step)) as [X|X].
      + exists [b; a1]. split; [intros [|f] F; [lia|]; cbn [arc]; destruct (Rle_lt_dec a1 (b + step)); [reflexivity | lra]|]. cbn. repeat split; lra || lia.
      + destruct (IH (b + step)) as (l & A & C & D & E & F); [lra | lra|]. exists (b :: l). split; [intros [|f] K; [lia|]; cbn [arc]; destruct (Rle_lt_dec a1 (b + step)); [lra|]; rewrite A by lia; reflexivity|].
        destruct l as [|x l]; [cbn in F; lia|]. cbn in C. subst x. split; [reflexivity|]. split; [exact D|]. split; [|cbn in *; lia]. cbn [small_steps]. split; [lra|]. split; [lra | exact E]. }
  set (r := (a1 - a) / step). assert (R0 : 0 <= r) by (unfold r; apply Rmult_le_pos; [lra | left; apply Rinv_0_lt_compat; exact SP]). destruct (archimed r) as (U & _).
  assert (Z0 : (0 <= up r)%Z) by (apply le_IZR; lra). destruct (G (Z.to_nat (up r)) a L) as (l & H); [|exists (S (Z.to_nat (up r))), l; exact H].
  rewrite INR_IZR_INZ, Z2Nat.id by exact Z0. replace (a1 - a) with (r * step) by (unfold r; field; lra). apply Rmult_le_compat_r; lra.
Qed.
(** a circle that is not too small is drawn *)
Theorem C90_circle_step : forall e r0 r1, 1 / 36 <= unit_of e * r0 -> exists step, circle_step e r0 r1 = Some step /\ 0 < step <= 360.
Proof.
  intros e r0 r1 H. unfold circle_step. rewrite !scaled_unit. set (m := Rmax (unit_of e * r0) (unit_of e * r1)). assert (M : 1 / 36 <= m) by (unfold m; pose proof (Rmax_l (unit_of e * r0) (unit_of e * r1)); lra).
  assert (Q : 1 <= sqrt m * 6). { assert (X : sqrt (1 / 36) <= sqrt m) by (apply sqrt_le_1_alt; exact M). replace (1 / 36) with (Rsqr (1 / 6)) in X by (unfold Rsqr; field). rewrite sqrt_Rsqr in X by lra. lra. }
  assert (I : (1 <= Int_part (sqrt m * 6))%Z). { destruct (base_Int_part (sqrt m * 6)) as (A & B). assert (X : 0 < IZR (Int_part (sqrt m * 6))) by lra. apply lt_IZR in X. lia. }
  destruct (Z.eq_dec (Int_part (sqrt m * 6)) 0) as [E|E]; [lia|]. eexists. split; [reflexivity|]. apply IZR_le in I. split; [apply Rdiv_lt_0_compat; lra|]. apply Rmult_le_reg_r with (IZR (Int_part (sqrt m * 6))); [lra|]. replace (360 / IZR (Int_part (sqrt m * 6)) * IZR (Int_part (sqrt m * 6))) with 360 by (field; lra). lra.
Qed.
(** a polygon is closed by its first point, unless by accident the last but one coordinate and the one before are those of the first point *)
Theorem C90_closed_partial : forall p, (2 <= length p)%nat -> firstn 2 p <> firstn 2 (skipn (length p - 3) p) -> firstn (length p) (closed p) = p /\ skipn (length (closed p) - 2) (closed p) = firstn 2 p.
Proof.
  intros p L H. unfold closed. destruct (list_eq_dec Req_EM_T _ _); [contradiction|]. assert (F : length (firstn 2 p) = 2%nat) by (apply firstn_length_le; exact L). rewrite app_length, F. split.
  - rewrite firstn_app, Nat.sub_diag, firstn_all. cbn [firstn]. apply app_nil_r.
  - replace (length p + 2 - 2)%nat with (length p) by lia. rewrite skipn_app, Nat.sub_diag, skipn_all. reflexivity.
Qed.
(** the corners of a regular polygon are on the circle around (radius, radius), at equal angles *)
Definition on_circle (radius t : R) : point := (radius + radius * cos t, radius + radius * sin t).
Lemma corners_nth : forall n radius t s k, (k < n)%nat -> nth k (corners n radius (sin t) (cos t) (radius * cos s) (radius * sin s)) (0, 0) = on_circle radius (s + INR (S k) * t).
Proof.
  induction n as [|n IH]; intros radius t s k K; [lia|]. cbn [corners]. cbv zeta.
  assert (A : radius * cos s * cos t - radius * sin s * sin t = radius * cos (s + t)) by (rewrite cos_plus; ring). assert (B : radius * cos s * sin t + radius * sin s * cos t = radius * sin (s + t)) by (rewrite sin_plus; ring). rewrite A, B.
  destruct k as [|k]; [cbn [nth]; unfold on_circle; replace (s + INR 1 * t) with (s + t) by (cbn; ring); f_equal; ring|]. cbn [nth]. rewrite IH by lia. f_equal. rewrite !S_INR. ring.
Qed.
Theorem C90_regular : forall radius n initial, length (regular_polygon radius n initial) = n /\ forall k, (k < n)%nat -> nth k (regular_polygon radius n initial) (0, 0) = on_circle radius (initial * PI / 180 + INR (S k) * (2 * PI / INR n)).
Proof.
  intros radius n initial. unfold regular_polygon. split; [|intros k K; apply corners_nth; exact K]. assert (G : forall n r a b x y, length (corners n r a b x y) = n) by (induction n0 as [|m IH]; intros; cbn; [reflexivity | rewrite IH; reflexivity]). apply G.
Qed.
(** the last corner is the one at the initial angle *)
Theorem C90_regular_last : forall radius n initial, (0 < n)%nat -> last (regular_polygon radius n initial) (0, 0) = on_circle radius (initial * PI / 180).
Proof.
  intros radius n initial N. destruct (C90_regular radius n initial) as (L & H). assert (X : forall (l : list point) d, l <> [] -> last l d = nth (length l - 1) l d).
  { induction l as [|a l IH]; intros d NE; [congruence|]. destruct l as [|b l]; [reflexivity|]. change (last (a :: b :: l) d) with (last (b :: l) d). rewrite IH by discriminate. cbn [length]. replace (S (S (length l)) - 1)%nat with (S (S (length l) - 1)) by lia. reflexivity. }
  rewrite X by (intros E; rewrite E in L; cbn in L; lia). rewrite L, H by lia. replace (S (n - 1)) with n by lia. replace (INR n * (2 * PI / INR n)) with (2 * PI) by (field; apply not_0_INR; lia).
  unfold on_circle. replace (initial * PI / 180 + 2 * PI) with (initial * PI / 180 + 2 * INR 1 * PI) by (cbn; ring). rewrite cos_period, sin_period. reflexivity.
Qed.
(** an image or text hangs at its anchor: north is half the height above the centre, east half the width to the right of it *)
Definition east (a : anchor) : R := match a with A_ne | A_e | A_se => 1 | A_nw | A_w | A_sw => -1 | _ => 0 end.
Definition north (a : anchor) : R := match a with A_ne | A_n | A_nw => 1 | A_se | A_s | A_sw => -1 | _ => 0 end.
Definition anchor_point (e : drawing) (center : point) (a : anchor) (w h : R) : point := let q := turn (angle e) (east a * w / 2, north a * h / 2) in (fst center + fst q, snd center + snd q).
Theorem C90_anchor : forall e a w h, screen e = true -> anchor_point e (image_center e a w h) a w h = place e (0, 0).
Proof.
  intros e a w h H. unfold anchor_point, image_center, hang, image_offset, place, turn, origin, unit_of, qx, qy, scaled, rad. rewrite H. destruct a; cbn [anchor_to_dis east north fst snd]; f_equal; field.
Qed.
(** a text is a tenth of the fontsize more to the left, as its image has that much room at the left; this holds in user coordinates as well *)
Theorem C90_text_anchor : forall e a w h fontsize, anchor_point e (text_center e a w h fontsize) a w h = let p := place e (0, 0) in let q := turn (angle e) (- (fontsize / 10), 0) in (fst p + fst q, snd p + snd q).
Proof.
  intros e a w h fontsize. unfold anchor_point, text_center, hang, place, turn, origin, unit_of, qx, qy, scaled, rad. destruct (screen e), a; cbn [anchor_to_dis east north fst snd]; f_equal; field.
Qed.
(** ** Cases *)
(** a triangle at (10, 20), turned 90 degrees, with offset 1 and scale 2 *)
Example C90_case : let e := mkDrawing false 2 0 0 10 20 1 0 90 1 in on_screen e [(0, 0); (4, 0); (0, 3)] = [(20, 42); (20, 50); (14, 42)].
Proof.
  intros e. rewrite C90_place. cbn [map]. unfold place, turn, origin, unit_of, e. cbn [screen scale x0 y0 dx dy offsetx offsety angle fst snd]. replace (90 * PI / 180) with (PI / 2) by lra. rewrite cos_PI2, sin_PI2. repeat f_equal; ring.
Qed.
Example C90_case_circle : exists step, circle_step (mkDrawing true 1 0 0 0 0 0 0 0 1) 4 4 = Some step /\ 0 < step <= 360.
Proof. apply C90_circle_step. unfold unit_of. cbn [screen]. lra. Qed.
Example C90_case_closed : closed [1; 2; 5; 2; 3; 7] = [1; 2; 5; 2; 3; 7; 1; 2].
Proof. unfold closed. destruct (list_eq_dec Req_EM_T _ _) as [H|H]; [|reflexivity]. cbn in H. injection H as H1 H2. lra. Qed.
(** an image of 40 by 20 with its lower right corner at (100, 50): its centre is at (80, 60) *)
Example C90_case_anchor : image_center (mkDrawing true 1 0 0 100 50 0 0 0 1) A_se 40 20 = (80, 60).
Proof. unfold image_center, hang, image_offset, scaled, qx, qy, rad. cbn [screen dx dy offsetx offsety angle anchor_to_dis fst snd]. replace (0 * PI / 180) with 0 by lra. rewrite cos_0, sin_0. f_equal; lra. Qed.
(** *** Refuted *)
(** a polygon is always closed: the triangle (0, 0), (5, 0), (0, 5) is not, its third side is missing *)
Theorem C90_closed_refuted : exists p, closed p = [0; 0; 5; 0; 0; 5] /\ p = [0; 0; 5; 0; 0; 5] /\ skipn (length (closed p) - 2) (closed p) <> firstn 2 p.
Proof.
  exists [0; 0; 5; 0; 0; 5]. assert (E : closed [0; 0; 5; 0; 0; 5] = [0; 0; 5; 0; 0; 5]). { unfold closed. destruct (list_eq_dec Req_EM_T _ _) as [X|X]; [reflexivity|]. exfalso. apply X. reflexivity. }
  split; [exact E|]. split; [reflexivity|]. rewrite E. cbn. intros H. injection H as H. lra.
Qed.
(** initial_angle is documented as the angle of the first corner: it is that of the last *)
Theorem C90_regular_refuted : exists radius n initial, (3 <= n)%nat /\ hd (0, 0) (regular_polygon radius n initial) <> on_circle radius (initial * PI / 180).
Proof.
  exists 1, 4%nat, 0. split; [lia|]. destruct (C90_regular 1 4 0) as (L & H). specialize (H 0%nat ltac:(lia)). destruct (regular_polygon 1 4 0) as [|p l]; [discriminate L|]. cbn [nth hd] in *. rewrite H. unfold on_circle.
  replace (0 * PI / 180) with 0 by lra. replace (0 + INR 1 * (2 * PI / INR 4)) with (PI / 2) by (cbn; lra). rewrite cos_PI2, sin_PI2, cos_0, sin_0. intros E. injection E as E1 E2. lra.
Qed.
(** rounded corners of the given radius: in user coordinates the radius is scaled twice *)
Theorem C90_corner_refuted : exists e r w h, 0 < r /\ r <= w / 2 /\ r <= h / 2 /\ unit_of e * corner e r w h <> unit_of e * r.
Proof.
  exists (mkDrawing false 2 0 0 0 0 0 0 0 1), 1, 10, 10. unfold unit_of, corner, scaled. cbn [screen scale]. rewrite Rabs_pos_eq by lra. rewrite !Rmin_left; try lra. rewrite Rmin_left; lra.
Qed.
(** images hang at their anchor in user coordinates as well: not with an offset, that is scaled twice (that of a shape or text only once) *)
Theorem C90_offset_refuted : exists e a w h, anchor_point e (image_center e a w h) a w h <> place e (0, 0).
Proof.
  exists (mkDrawing false 2 0 0 0 0 3 0 0 1), A_c, 10, 10. unfold anchor_point, image_center, hang, image_offset, place, turn, origin, unit_of, qx, qy, scaled, rad. cbn [screen scale x0 y0 dx dy offsetx offsety angle anchor_to_dis east north fst snd].
  replace (0 * PI / 180) with 0 by lra. rewrite cos_0, sin_0. intros H. injection H as H _. lra.
Qed.
(** a circle with radius 0 cannot be drawn: ZeroDivisionError *)
Theorem C90_small_refuted : exists r, forall e, circle_step e r r = None.
Proof.
  exists 0. intros e. unfold circle_step. rewrite scaled_unit, Rmult_0_r, Rmax_left, sqrt_0, Rmult_0_l by lra. assert (I : Int_part 0 = 0%Z). { destruct (base_Int_part 0) as (A & B). assert (X : IZR (Int_part 0) <= 0) by lra. assert (Y : -1 < IZR (Int_part 0)) by lra. apply le_IZR in X. apply lt_IZR in Y. lia. }
  rewrite I. reflexivity.
Qed.
(** an image is made again when it changes: not when the user zooms and the linewidth is 0 *)
Theorem C90_zoom_refuted : exists e e' p, ident e p = ident e' p /\ rscaled e p <> rscaled e' p.
Proof.
  exists (mkDrawing false 1 0 0 0 0 0 0 0 0), (mkDrawing false 2 0 0 0 0 0 0 0 0), [(0, 0); (1, 0)]. split; [unfold ident, linewidth; cbn [screen scale lw angle]; rewrite !Rmult_0_l; reflexivity|].
  unfold rscaled, minrx, maxry, minl, maxl, turned, scaled, linewidth, rad. cbn [map fst snd fold_left screen scale lw angle]. replace (0 * PI / 180) with 0 by lra. rewrite cos_0, sin_0. intros H. injection H as _ _ H1 _.
  rewrite !Rmin_left in H1 by lra. lra.
Qed.
(** an image with a linewidth is made again when the scale changes *)
Theorem C90_zoom : forall e e' p, screen e = false -> lw e = lw e' -> lw e <> 0 -> ident e p = ident e' p -> scale e = scale e' /\ rscaled e p = rscaled e' p.
Proof.
  intros e e' p S L N I. unfold ident in I. injection I as I1 I2 I3. assert (E : scale e = scale e').
  { unfold linewidth in I1. rewrite <- I3, S in I1. rewrite <- L in I1. apply Rmult_eq_reg_l in I1; auto. }
  split; [exact E|]. unfold rscaled, minrx, maxry, turned, linewidth, scaled. rewrite <- I3, S, <- E, <- I2, <- L. reflexivity.
Qed.
Print Assumptions C90_place. Print Assumptions C90_rigid. Print Assumptions C90_upright. Print Assumptions C90_inside. Print Assumptions C90_circle. Print Assumptions C90_ellipse. Print Assumptions C90_arc. Print Assumptions C90_circle_step. Print Assumptions C90_closed_partial. Print Assumptions C90_zoom.
Print Assumptions C90_anchor. Print Assumptions C90_text_anchor. Print Assumptions C90_regular. Print Assumptions C90_regular_last. Print Assumptions C90_regular_refuted. Print Assumptions C90_closed_refuted. Print Assumptions C90_corner_refuted. Print Assumptions C90_offset_refuted. Print Assumptions C90_small_refuted. Print Assumptions C90_zoom_refuted.
