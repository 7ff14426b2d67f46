(** C92: zooming and panning. *)
From Coq Require Import QArith Qfield Qpower ZArith List Lia Lqa.
From Verif Require Import View.
Import ListNotations.
Open Scope Q_scope.

(** ** Where a point is shown: its screen coordinates (upwards) while drawing *)
Definition shown_x (v : view) (u : Q) : Q := to_screen_x (pre_tick v) u.
Definition shown_y (v : view) (u : Q) : Q := to_screen_y (pre_tick v) u.
(** ** A proper environment: a window with a size, that shows a part of the world *)
Definition proper (v : view) : Prop := 0 < w v /\ 0 < h v /\ x0 v < x1 v /\ scale v == w v / (x1 v - x0 v) /\ y1 v == y0 v + h v / scale v /\ 0 < zf v.
(** ** The same world *)
Definition same_world (v v' : view) : Prop :=
  w v' = w v /\ h v' = h v /\ zf v' = zf v /\ x0 v' = x0 v /\ x1 v' = x1 v /\ y0 v' = y0 v /\ y1 v' = y1 v /\ scale v' = scale v.
(** ** Notches of the wheel since the last unzoom *)
Fixpoint notches (l : list op) (n : Z) : Z := match l with [] => n | Wheel d _ _ :: l => notches l (n + d)%Z | Unzoom :: l => notches l 0%Z | _ :: l => notches l n end.
Definition no_drag (o : op) : bool := match o with Drag _ _ => false | _ => true end.
Definition panning (o : op) : bool := match o with Drag _ _ | Tick => true | _ => false end.

(** ** Proofs *)
Lemma proper_scale : forall v, proper v -> 0 < scale v.
Proof. intros v (W & H & X & S & _). rewrite S. unfold Qdiv. apply Qmult_lt_0_compat; [exact W|]. apply Qinv_lt_0_compat. lra. Qed.
Lemma same_refl : forall v, same_world v v. Proof. intros v. repeat split. Qed.
Lemma same_trans : forall a b c, same_world a b -> same_world b c -> same_world a c.
Proof. intros a b c H K. unfold same_world in *. intuition congruence. Qed.
Lemma zooms_same : forall n f x y v, same_world v (zooms n f x y v).
Proof. induction n as [|n IH]; intros f x y v; [apply same_refl|]. cbn [zooms]. eapply same_trans; [|apply IH]. repeat split. Qed.
Lemma do_same : forall o v, same_world v (do o v).
Proof. intros o v. destruct o; cbn [do]; try solve [repeat split]. apply zooms_same. Qed.
Lemma run_same : forall l v, same_world v (run l v).
Proof. induction l as [|o l IH]; intros v; [apply same_refl|]. cbn [run]. eapply same_trans; [apply do_same|apply IH]. Qed.
Lemma zooms_fix : forall n f x y v, ~ f == 0 ->
  (x - x0z (zooms n f x y v)) * scalez (zooms n f x y v) == (x - x0z v) * scalez v /\ (y - y0z (zooms n f x y v)) * scalez (zooms n f x y v) == (y - y0z v) * scalez v.
Proof.
  induction n as [|n IH]; intros f x y v F; [split; reflexivity|]. cbn [zooms]. destruct (IH f x y (zoom f x y v) F) as [A B]. rewrite A, B. unfold zoom, set_zoom; cbn [x0z y0z scalez]. split; field; exact F.
Qed.
Lemma zooms_scale : forall n f x y v, ~ f == 0 -> scalez (zooms n f x y v) == scalez v * Qpower (/ f) (Z.of_nat n).
Proof.
  induction n as [|n IH]; intros f x y v F; [cbn; field|]. cbn [zooms]. rewrite IH by exact F. unfold zoom, set_zoom; cbn [scalez].
  rewrite Nat2Z.inj_succ, <- Z.add_1_l, Qpower_plus; [|intros E; apply F; rewrite <- (Qinv_involutive f), E; reflexivity]. change (Qpower (/ f) 1) with (/ f). unfold Qdiv. ring.
Qed.
Lemma factor_nz : forall (b : bool) z, 0 < z -> ~ (if b then z else 1 / z) == 0.
Proof. intros b z Z. destruct b; [lra|]. assert (0 < 1 / z) by (unfold Qdiv; rewrite Qmult_1_l; apply Qinv_lt_0_compat; exact Z). lra. Qed.
Lemma wheel_scale : forall d mx my v, 0 < zf v -> scalez (wheel d mx my v) == scalez v * Qpower (zf v) d.
Proof.
  intros d mx my v Z. unfold wheel. cbv zeta. rewrite zooms_scale by (apply factor_nz; exact Z). rewrite Zabs2Nat.id_abs. destruct (d <? 0)%Z eqn:D.
  - apply Z.ltb_lt in D. rewrite Z.abs_neq by lia. rewrite Qinv_power, Qpower_opp. rewrite Qinv_involutive. reflexivity.
  - apply Z.ltb_ge in D. rewrite Z.abs_eq by lia. assert (E : / (1 / zf v) == zf v) by (unfold Qdiv; rewrite Qmult_1_l, Qinv_involutive; reflexivity). rewrite E. reflexivity.
Qed.
Lemma run_scale : forall l v n, 0 < zf v -> 0 < scale v -> scalez v == scale v * Qpower (zf v) n -> scalez (run l v) == scale v * Qpower (zf v) (notches l n).
Proof.
  induction l as [|o l IH]; intros v n Z P E; [exact E|]. cbn [run]. destruct (do_same o v) as (_ & _ & F & _ & _ & _ & _ & S).
  assert (K : forall m, scalez (do o v) == scale v * Qpower (zf v) m -> scalez (run l (do o v)) == scale v * Qpower (zf v) (notches l m)).
  { intros m M. rewrite <- F, <- S. apply IH; rewrite ?F, ?S; assumption. }
  destruct o; cbn [notches]; apply K; cbn [do]; try exact E.
  - rewrite wheel_scale by exact Z. rewrite E, Qpower_plus by lra. ring.
  - cbn. ring.
Qed.
(* visible part: x1z is shown at the right edge, y1z at the top *)
Definition fits (v : view) : Prop := (x1z v - x0z v) * scalez v == w v /\ (y1z v - y0z v) * scalez v == h v.
Lemma zooms_fits : forall n f x y v, ~ f == 0 -> fits v -> fits (zooms n f x y v).
Proof.
  induction n as [|n IH]; intros f x y v F H; [exact H|]. cbn [zooms]. apply IH; [exact F|]. destruct H as [A B]. unfold fits, zoom, set_zoom; cbn [x0z x1z y0z y1z scalez w h]. split; [rewrite <- A|rewrite <- B]; field; exact F.
Qed.
Lemma start_fits : forall v, proper v -> fits (start v).
Proof.
  intros v P. pose proof (proper_scale v P) as S. destruct P as (W & H & X & E & Y & _). unfold fits, start, set_zoom; cbn [x0z x1z y0z y1z scalez w h]. split; [rewrite E; field; lra|rewrite Y; field; lra].
Qed.
Lemma run_fits : forall l v, proper v -> forallb no_drag l = true -> fits v -> fits (run l v).
Proof.
  induction l as [|o l IH]; intros v P N H; [exact H|]. cbn [forallb] in N. apply andb_prop in N. destruct N as [N1 N2]. cbn [run]. apply IH; [|exact N2|].
  - destruct (do_same o v) as (A & B & C1 & D & E & F & G & I). unfold proper. rewrite A, B, C1, D, E, F, G, I. exact P.
  - destruct o; cbn [do]; try exact H; [|discriminate|exact (start_fits v P)]. unfold wheel; cbv zeta. apply zooms_fits; [|exact H]. apply factor_nz. apply P.
Qed.
Lemma pan_keeps : forall l v, forallb panning l = true -> gx (run l v) = gx v /\ gy (run l v) = gy v /\ gx0 (run l v) = gx0 v /\ gy0 (run l v) = gy0 v /\ scalez (run l v) = scalez v.
Proof.
  induction l as [|o l IH]; intros v H; [repeat split|]. cbn [forallb] in H. apply andb_prop in H. destruct H as [A B]. cbn [run]. destruct (IH (do o v) B) as (P & Q1 & R & S & T). rewrite P, Q1, R, S, T. destruct o; try discriminate; repeat split.
Qed.
Lemma run_app : forall l k v, run (l ++ k) v = run k (run l v). Proof. induction l as [|o l IH]; intros k v; [reflexivity|apply IH]. Qed.

(** ** Theorems *)
(** the conversions between screen and user coordinates are each other's inverse *)
Theorem C92_conversions : forall v a, ~ scale v == 0 ->
  to_user_x v (to_screen_x v a) == a /\ to_screen_x v (to_user_x v a) == a /\ to_user_y v (to_screen_y v a) == a /\ to_screen_y v (to_user_y v a) == a /\
  to_user_size v (to_screen_size v a) == a /\ to_screen_size v (to_user_size v a) == a /\
  (forall b, to_screen_x v b - to_screen_x v a == to_screen_size v (b - a) /\ to_screen_y v b - to_screen_y v a == to_screen_size v (b - a)).
Proof. intros v a S. unfold to_user_x, to_screen_x, to_user_y, to_screen_y, to_user_size, to_screen_size. repeat split; try (field; exact S); ring. Qed.
(** the process of the model sees the same coordinates, whatever the mouse does *)
Theorem C92_model : forall l v, same_world v (run l v). Proof. exact run_same. Qed.
(** at the start the part of the world between x0, y0 and x1, y1 fills the window *)
Theorem C92_start : forall v width height a b c, 0 < width -> 0 < height -> a < b ->
  let v' := start (params v width height a b c) in
  x0 v' = a /\ x1 v' = b /\ y0 v' = c /\ shown_x v' a == 0 /\ shown_x v' b == width /\ shown_y v' c == 0 /\ shown_y v' (y1 v') == height /\
  (forall u u' z z', (shown_x v' u' - shown_x v' u) * (z' - z) == (shown_y v' z' - shown_y v' z) * (u' - u)).
Proof.
  intros v width height a b c W H L v'. subst v'. unfold start, params, shown_x, shown_y, to_screen_x, to_screen_y, pre_tick, set_org, set_world, set_zoom; cbn [x0 x1 y0 y1 scale x0z x1z y0z y1z scalez w h zf].
  repeat split; try reflexivity; try (intros; ring); field; try split; try lra; intros K; lra.
Qed.
(** the size at which things are shown depends on the number of notches only; so notches in and as many out bring it back *)
Theorem C92_size : forall l v u u', proper v ->
  shown_x (run l (start v)) u' - shown_x (run l (start v)) u == (u' - u) * scale v * Qpower (zf v) (notches l 0) /\
  shown_y (run l (start v)) u' - shown_y (run l (start v)) u == (u' - u) * scale v * Qpower (zf v) (notches l 0).
Proof.
  intros l v u u' P. assert (E : scalez (run l (start v)) == scale v * Qpower (zf v) (notches l 0)).
  { pose proof (run_scale l (start v) 0) as K. unfold start in *; cbn [zf scale scalez set_zoom] in K. apply K; [apply P|apply proper_scale, P|cbn; ring]. }
  unfold shown_x, shown_y, to_screen_x, to_screen_y, pre_tick, set_world, set_org; cbn [x0 y0 scale x0z y0z scalez]. rewrite E. split; ring.
Qed.
(** u shows the picture of the start again *)
Theorem C92_unzoom : forall l v u, shown_x (unzoom (run l v)) u = to_screen_x v u /\ shown_y (unzoom (run l v)) u = to_screen_y v u.
Proof.
  intros l v u. destruct (run_same l v) as (_ & _ & _ & X & _ & Y & _ & S). unfold shown_x, shown_y, to_screen_x, to_screen_y, pre_tick, unzoom, set_zoom, set_world, set_org; cbn [x0 y0 scale x0z y0z scalez]. rewrite X, Y, S. split; reflexivity.
Qed.
(** partial: zooming leaves the point under the mouse where it is, if the picture is not zoomed yet *)
Theorem C92_zoom_partial : forall d mx my v ux uy, 0 < zf v -> 0 < scale v -> scalez v == scale v -> shown_x v ux == mx -> shown_y v uy == my ->
  shown_x (wheel d mx my v) ux == mx /\ shown_y (wheel d mx my v) uy == my.
Proof.
  intros d mx my v ux uy Z S E X Y. unfold shown_x, shown_y, to_screen_x, to_screen_y, pre_tick, set_world, set_org in *; cbn [x0 y0 scale x0z y0z scalez] in *.
  unfold wheel; cbv zeta. set (f := if (d <? 0)%Z then zf v else 1 / zf v). assert (F : ~ f == 0) by (apply factor_nz; exact Z).
  destruct (zooms_fix (Z.abs_nat d) f (mx / scale v + x0z v) (my / scale v + y0z v) v F) as [A B].
  assert (UX : ux == mx / scale v + x0z v) by (rewrite <- X, E; field; lra). assert (UY : uy == my / scale v + y0z v) by (rewrite <- Y, E; field; lra).
  rewrite UX, A, UY, B, E. split; field; lra.
Qed.
(** partial: the point that is dragged follows the mouse, if the picture is not zoomed; ey is measured downwards *)
Theorem C92_pan_partial : forall l ex ey ex' ey' v ux uy, 0 < scale v -> scalez v == scale v -> forallb panning l = true -> shown_x v ux == ex -> shown_y v uy == h v - ey ->
  let v' := run (Press ex ey :: l ++ [Drag ex' ey']) v in shown_x v' ux == ex' /\ shown_y v' uy == h v' - ey'.
Proof.
  intros l ex ey ex' ey' v ux uy S E N X Y v'. subst v'. cbn [run]. rewrite run_app. cbn [run do].
  destruct (pan_keeps l (press ex ey v) N) as (A & B & C1 & D & F). destruct (run_same l (press ex ey v)) as (_ & H & _ & _ & _ & _ & _ & T).
  unfold shown_x, shown_y, to_screen_x, to_screen_y, pre_tick, set_world, set_org, drag, set_zoom in *; cbn [x0 y0 scale x0z y0z scalez h] in *. rewrite A, B, C1, D, F, T, H. cbn.
  rewrite E in *. split.
  - transitivity ((ux - x0z v) * scale v + (ex' - ex)); [field; lra|rewrite X; ring].
  - transitivity ((uy - y0z v) * scale v - (ey' - ey)); [field; lra|rewrite Y; ring].
Qed.
(** partial: while drawing, x0, y0, x1 and y1 are the edges of what is seen, as long as there is no panning *)
Theorem C92_edges_partial : forall l v, proper v -> forallb no_drag l = true ->
  let d := pre_tick (run l (start v)) in to_screen_x d (x0 d) == 0 /\ to_screen_y d (y0 d) == 0 /\ to_screen_x d (x1 d) == w v /\ to_screen_y d (y1 d) == h v.
Proof.
  intros l v P N d. subst d. assert (P' : proper (start v)) by exact P. destruct (run_fits l (start v) P' N (start_fits v P)) as [A B].
  destruct (run_same l (start v)) as (W & H & _). unfold to_screen_x, to_screen_y, pre_tick, set_world, set_org; cbn [x0 x1 y0 y1 scale x0z x1z y0z y1z scalez]. rewrite A, B, W, H. repeat split; try ring.
Qed.
(** an anchor is at the same place of the world whatever the mouse does; in a picture that is not zoomed or panned that is at the place of the anchor in the window *)
Theorem C92_anchor : forall l v a b, proper v ->
  anchor_x (pre_tick (run l v)) a b = anchor_x (pre_tick v) a b /\ anchor_y (pre_tick (run l v)) a b = anchor_y (pre_tick v) a b /\
  to_screen_x (pre_tick (unzoom (run l v))) (anchor_x (pre_tick (unzoom (run l v))) a false) == anchor_x (pre_tick v) a true /\
  to_screen_y (pre_tick (unzoom (run l v))) (anchor_y (pre_tick (unzoom (run l v))) a false) == anchor_y (pre_tick v) a true.
Proof.
  intros l v a b P. pose proof (proper_scale v P) as S. destruct P as (W & H & X & E & Y & _). destruct (run_same l v) as (A1 & A2 & _ & A3 & A4 & A5 & A6 & A7).
  unfold anchor_x, anchor_y, to_screen_x, to_screen_y, pre_tick, unzoom, set_zoom, set_world, set_org; cbn [x0 x1 y0 y1 scale x0z x1z y0z y1z scalez w h ox0 ox1 oy0 oy1]. rewrite A1, A2, A3, A4, A5, A6, A7.
  assert (EX : (x1 v - x0 v) * scale v == w v) by (rewrite E; field; lra). assert (EY : (y1 v - y0 v) * scale v == h v) by (rewrite Y; field; lra).
  assert (MX : ((x0 v + x1 v) / 2 - x0 v) * scale v == w v / 2) by (rewrite <- EX; field). assert (MY : ((y0 v + y1 v) / 2 - y0 v) * scale v == h v / 2) by (rewrite <- EY; field).
  split; [reflexivity|]. split; [reflexivity|]. destruct a; split; first [assumption|ring].
Qed.
(** where the anchors are: left, middle, right and bottom, middle, top of the window *)
Theorem C92_anchor_places : forall v, 0 < w v -> 0 < h v ->
  (forall a, anchor_x v a true == 0 <-> In a [ANW; AW; ASW]) /\ (forall a, anchor_x v a true == w v / 2 <-> In a [AN; AC; AS]) /\ (forall a, anchor_x v a true == w v <-> In a [ANE; AE; ASE; AEmpty]) /\
  (forall a, anchor_y v a true == 0 <-> In a [ASW; AS; ASE; AEmpty]) /\ (forall a, anchor_y v a true == h v / 2 <-> In a [AW; AC; AE]) /\ (forall a, anchor_y v a true == h v <-> In a [ANW; AN; ANE]).
Proof.
  intros v W H. assert (W2 : w v / 2 == w v * (1#2)) by reflexivity. assert (H2 : h v / 2 == h v * (1#2)) by reflexivity.
  repeat split; destruct a; cbn [anchor_x anchor_y In]; intros K; try (exfalso; lra); try (intuition congruence); intuition (discriminate || reflexivity).
Qed.
(** where the point under the mouse goes, in any picture: it stays exactly if the picture is not zoomed yet, or the mouse is at the edge, or the wheel does not zoom *)
Theorem C92_zoom_exact : forall d mx my v ux uy, 0 < zf v -> 0 < scale v -> shown_x v ux == mx -> shown_y v uy == my ->
  let r := scalez v / scale v in
  shown_x (wheel d mx my v) ux == mx + mx * (1 - r) * (Qpower (zf v) d - 1) /\ shown_y (wheel d mx my v) uy == my + my * (1 - r) * (Qpower (zf v) d - 1) /\
  (shown_x (wheel d mx my v) ux == mx <-> mx == 0 \/ scalez v == scale v \/ Qpower (zf v) d == 1).
Proof.
  intros d mx my v ux uy Z S X Y r. pose proof (wheel_scale d mx my v Z) as WS.
  assert (G : shown_x (wheel d mx my v) ux == mx + mx * (1 - r) * (Qpower (zf v) d - 1) /\ shown_y (wheel d mx my v) uy == my + my * (1 - r) * (Qpower (zf v) d - 1)).
  { unfold shown_x, shown_y, to_screen_x, to_screen_y, pre_tick, set_world, set_org in *; cbn [x0 y0 scale x0z y0z scalez] in *.
    assert (F : ~ (if (d <? 0)%Z then zf v else 1 / zf v) == 0) by (apply factor_nz; exact Z).
    destruct (zooms_fix (Z.abs_nat d) _ (mx / scale v + x0z v) (my / scale v + y0z v) v F) as [A B].
    change (zooms (Z.abs_nat d) (if (d <? 0)%Z then zf v else 1 / zf v) (mx / scale v + x0z v) (my / scale v + y0z v) v) with (wheel d mx my v) in A, B.
    generalize dependent (wheel d mx my v). intros v' WS A B. subst r. set (q := Qpower (zf v) d) in *. split.
    - transitivity ((mx / scale v + x0z v - x0z v') * scalez v' + ((ux - x0z v) - mx / scale v) * scalez v'); [ring|]. rewrite A, WS.
      transitivity (mx * (scalez v / scale v) + ((ux - x0z v) * scalez v - mx * (scalez v / scale v)) * q); [field; lra|]. rewrite X. ring.
    - transitivity ((my / scale v + y0z v - y0z v') * scalez v' + ((uy - y0z v) - my / scale v) * scalez v'); [ring|]. rewrite B, WS.
      transitivity (my * (scalez v / scale v) + ((uy - y0z v) * scalez v - my * (scalez v / scale v)) * q); [field; lra|]. rewrite Y. ring. }
  destruct G as [GX GY]. split; [exact GX|]. split; [exact GY|]. rewrite GX. set (q := Qpower (zf v) d). split.
  - intros K. assert (M : mx * (1 - r) * (q - 1) == 0) by lra. apply Qmult_integral in M. destruct M as [M|M]; [|right; right; lra]. apply Qmult_integral in M. destruct M as [M|M]; [left; exact M|right; left].
    assert (R : r == 1) by lra. subst r. transitivity (scalez v / scale v * scale v); [field; lra|]. rewrite R. ring.
  - intros [K|[K|K]]; [rewrite K; ring| |rewrite K; ring]. assert (R : r == 1) by (subst r; rewrite K; field; lra). rewrite R. ring.
Qed.
(** and a point that is dragged moves as the mouse, times the zoom *)
Theorem C92_pan_exact : forall l ex ey ex' ey' v ux uy, 0 < scale v -> forallb panning l = true ->
  let v' := run (Press ex ey :: l ++ [Drag ex' ey']) v in let r := scalez v / scale v in
  shown_x v' ux == shown_x v ux + (ex' - ex) * r /\ shown_y v' uy == shown_y v uy - (ey' - ey) * r.
Proof.
  intros l ex ey ex' ey' v ux uy S N v' r. subst v' r. cbn [run]. rewrite run_app. cbn [run do].
  destruct (pan_keeps l (press ex ey v) N) as (A & B & C1 & D & F). destruct (run_same l (press ex ey v)) as (_ & _ & _ & _ & _ & _ & _ & T).
  unfold shown_x, shown_y, to_screen_x, to_screen_y, pre_tick, set_world, set_org, drag, set_zoom in *; cbn [x0 y0 scale x0z y0z scalez h] in *. rewrite A, B, C1, D, F, T. cbn. split; field; lra.
Qed.

(** ** Refuted *)
Definition env0 : view := params (mkView 0 0 2 0 0 0 0 0 0 0 0 0 0 0 0 0 0 0 0 0 0 0) 800 600 0 800 0.
(** in a zoomed picture the point under the mouse moves away: on_mousewheel uses _scale instead of _scalez, 11297-11298 *)
Theorem C92_zoom_refuted : exists v l mx my u, proper v /\ shown_x (run l (start v)) u == mx /\ ~ shown_x (run (l ++ [Wheel 1 mx my]) (start v)) u == mx.
Proof. exists env0, [Wheel 1 400 300; Tick], 600, 300, 500. split; [|split; vm_compute; congruence]. unfold proper; vm_compute; repeat split; congruence. Qed.
(** so a notch in and a notch out, with the mouse at the same place, does not bring the picture back *)
Theorem C92_back_refuted : exists v mx my u, proper v /\ ~ shown_x (run [Wheel 1 mx my; Wheel (-1) mx my] (start v)) u == shown_x (start v) u.
Proof. exists env0, 400, 300, 500. split; [|vm_compute; congruence]. unfold proper; vm_compute; repeat split; congruence. Qed.
(** in a zoomed picture the point that is dragged does not follow the mouse: do_pan, 11344-11345 *)
Theorem C92_pan_refuted : exists v l ex ey ex' ey' u, proper v /\ shown_x (run l (start v)) u == ex /\ ~ shown_x (run (l ++ [Press ex ey; Drag ex' ey']) (start v)) u == ex'.
Proof. exists env0, [Wheel 1 400 300], 400, 300, 500, 300, 400. split; [|split; vm_compute; congruence]. unfold proper; vm_compute; repeat split; congruence. Qed.
(** after panning a zoomed picture, x1 is not the right edge of what is seen: 11350 *)
Theorem C92_edges_refuted : exists v l, proper v /\ let d := pre_tick (run l (start v)) in ~ to_screen_x d (x1 d) == w v.
Proof. exists env0, [Wheel 1 400 300; Press 0 0; Drag 10 0]. split; [|vm_compute; congruence]. unfold proper; vm_compute; repeat split; congruence. Qed.
(** x0, x1, y0 that are changed while the animation runs do not change the picture (before the next run or u) *)
Theorem C92_change_refuted : exists v width height a b c l, proper v /\ 0 < width /\ 0 < height /\ a < b /\ ~ shown_x (run l (params (start v) width height a b c)) a == 0.
Proof. exists env0, 800, 600, 100, 900, 0, [Tick; Tick]. split; [unfold proper; vm_compute; repeat split; congruence|]. repeat split; vm_compute; congruence. Qed.

(** ** Cases *)
Example C92_case_proper : proper env0. Proof. unfold proper; vm_compute; repeat split; congruence. Qed.
Example C92_case_conversions : to_screen_x (params env0 800 600 100 500 50) 150 == 100 /\ to_user_y (params env0 800 600 100 500 50) 100 == 100. Proof. split; reflexivity. Qed.
Example C92_case_zoom : scalez (start env0) == scale (start env0) /\ shown_x (start env0) 400 == 400 /\ shown_x (wheel 2 400 300 (start env0)) 400 == 400 /\ shown_x (wheel 2 400 300 (start env0)) 410 == 440. Proof. repeat split. Qed.
Example C92_case_exact : let v := wheel 1 400 300 (start env0) in 0 < zf v /\ 0 < scale v /\ shown_x v 500 == 600 /\ shown_x (wheel 1 600 300 v) 500 == 0 /\ shown_x (run [Press 0 0; Drag 10 0] v) 500 == 620. Proof. repeat split. Qed.
Example C92_case_size : notches [Wheel 2 0 0; Press 0 0; Tick; Wheel (-1) 5 5] 0 = 1%Z. Proof. reflexivity. Qed.
Example C92_case_pan : shown_x (start env0) 100 == 100 /\ shown_y (start env0) 200 == h (start env0) - 400 /\ shown_x (run [Press 100 400; Drag 110 390; Tick; Drag 150 380] (start env0)) 100 == 150. Proof. repeat split. Qed.
Example C92_case_edges : forallb no_drag [Wheel 1 3 4; Tick; Press 1 2; Unzoom; Wheel (-2) 7 7] = true. Proof. reflexivity. Qed.
Example C92_case_anchor : anchor_x (pre_tick (run [Wheel 1 3 4] env0)) ANE false == 800 /\ anchor_y (pre_tick env0) AC false == 300. Proof. split; reflexivity. Qed.

Print Assumptions C92_conversions. Print Assumptions C92_model. Print Assumptions C92_start. Print Assumptions C92_size. Print Assumptions C92_unzoom. Print Assumptions C92_zoom_partial. Print Assumptions C92_pan_partial.
Print Assumptions C92_edges_partial. Print Assumptions C92_anchor. Print Assumptions C92_anchor_places. Print Assumptions C92_zoom_refuted. Print Assumptions C92_back_refuted. Print Assumptions C92_pan_refuted. Print Assumptions C92_edges_refuted. Print Assumptions C92_change_refuted. Print Assumptions C92_zoom_exact. Print Assumptions C92_pan_exact.
