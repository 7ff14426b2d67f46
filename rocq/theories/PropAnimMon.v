(** C88: an animated monitor shows the monitor. *)
From Coq Require Import QArith Qminmax List Bool Lia Lqa Setoid.
From Verif Require Import AnimMon.
Import ListNotations.
Open Scope Q_scope.

(** ** What should be shown *)
Section Values.
Variable V : Type.
Notation monitor := (monitor V). Notation animate := (animate V).
(** the part of the history that is visible starts at start, or so much before now as fits in the width *)
Definition left_edge (a : animate) (now : Q) : Q := if Qle_bool (now - start V (mon V a)) (width V a / hscale V a) then start V (mon V a) else now - width V a / hscale V a.
(** the history backwards: from a to b the value was v *)
Fixpoint periods (b : Q) (es : list (Q * V)) : list (Q * Q * V) := match es with [] => [] | (a, v) :: es => (a, b, v) :: periods a es end.
Definition history (a : animate) (now : Q) : list (Q * Q * V) := periods now (rev (entries V (mon V a))).
(** the value at moment u: the last that was tallied at u or before *)
Fixpoint value_at (u : Q) (es : list (Q * V)) : option V := match es with [] => None | (t, v) :: es => match value_at u es with Some w => Some w | None => if Qle_bool t u then Some v else None end end.
(** the place of a moment and a value in the frame *)
Definition at_x (a : animate) (now u x : Q) : Prop := x == (u - left_edge a now) * hscale V a.
(** normal circumstances: a positive scale, tallies in order of time between start and now *)
Fixpoint ordered (b : Q) (es : list (Q * V)) : Prop := match es with [] => True | (t, _) :: es => t <= b /\ ordered t es end.
Record usual (a : animate) (now : Q) : Prop := {
  us_scale : 0 < hscale V a; us_width : 0 <= width V a; us_height : 0 <= height V a;
  us_order : ordered now (rev (entries V (mon V a))); us_start : forall e, In e (entries V (mon V a)) -> start V (mon V a) <= fst e; us_now : start V (mon V a) <= now }.
(** no reset_now was done *)
Definition no_reset (a : animate) : Prop := offset V a == 0.

(** ** Proofs *)
Lemma qle_false : forall x y, Qle_bool x y = false -> y < x.
Proof. intros x y H. apply Qnot_le_lt. intros L. apply Qle_bool_iff in L. congruence. Qed.
Lemma left_le : forall a now, usual a now -> left_edge a now <= now /\ start V (mon V a) <= left_edge a now /\ now - left_edge a now <= width V a / hscale V a.
Proof.
  intros a now U. destruct U as [H W _ _ _ N]. unfold left_edge. assert (D : 0 <= width V a / hscale V a) by (apply Qle_shift_div_l; auto; lra).
  destruct (Qle_bool (now - start V (mon V a)) (width V a / hscale V a)) eqn:E; [apply Qle_bool_iff in E | apply qle_false in E]; lra.
Qed.
Lemma clamp : forall w x, 0 <= x -> x <= w -> Qmax 0 (Qmin w x) == x.
Proof. intros w x A B. rewrite Q.min_r by auto. apply Q.max_r. auto. Qed.
Lemma x_shown : forall a now u, usual a now -> left_edge a now <= u -> u <= now -> at_x a now u (fst (t_to_x V a now u)) /\ snd (t_to_x V a now u) = false.
Proof.
  intros a now u U L N. pose proof (left_le a now U) as (_ & _ & FW). destruct U as [H W _ _ _ _]. unfold at_x, t_to_x, displacement, width_div.
  assert (B : 0 <= (u - left_edge a now) * hscale V a <= width V a).
  { split; [apply Qmult_le_0_compat; lra|]. apply Qle_trans with ((width V a / hscale V a) * hscale V a); [apply Qmult_le_compat_r; lra|]. assert (X : width V a / hscale V a * hscale V a == width V a) by (field; lra). rewrite X. apply Qle_refl. }
  revert L FW B. unfold left_edge. destruct (Qle_bool (now - start V (mon V a)) (width V a / hscale V a)) eqn:E; intros L FW B.
  - apply Qle_bool_iff in E. assert (X : Qle_bool 0 (width V a / hscale V a - (now - start V (mon V a))) = true) by (apply Qle_bool_iff; lra). rewrite X. cbn [fst snd]. split; [apply clamp; lra | reflexivity].
  - apply qle_false in E. destruct (Qle_bool 0 (width V a / hscale V a - (now - start V (mon V a)))) eqn:X; [apply Qle_bool_iff in X; lra|].
    cbv zeta. destruct (Qle_bool 0 (u - start V (mon V a) + (width V a / hscale V a - (now - start V (mon V a))))) eqn:Y; [|apply qle_false in Y; lra]. cbn [fst snd]. split; [|reflexivity].
    assert (Z : (u - start V (mon V a) + (width V a / hscale V a - (now - start V (mon V a)))) * hscale V a == (u - (now - width V a / hscale V a)) * hscale V a) by ring. rewrite Z. apply clamp; lra.
Qed.
Lemma x_before : forall a now u, usual a now -> start V (mon V a) <= u -> u < left_edge a now -> fst (t_to_x V a now u) == 0 /\ snd (t_to_x V a now u) = true.
Proof.
  intros a now u U S L. destruct U as [H W _ _ _ _]. revert L. unfold left_edge, t_to_x, displacement, width_div.
  destruct (Qle_bool (now - start V (mon V a)) (width V a / hscale V a)) eqn:E; intros L; [lra|]. apply qle_false in E.
  destruct (Qle_bool 0 (width V a / hscale V a - (now - start V (mon V a)))) eqn:X; [apply Qle_bool_iff in X; lra|]. cbv zeta.
  destruct (Qle_bool 0 (u - start V (mon V a) + (width V a / hscale V a - (now - start V (mon V a))))) eqn:Y; [apply Qle_bool_iff in Y; lra|]. cbn [fst snd]. split; [|reflexivity].
  assert (Z : 0 * hscale V a == 0) by ring. rewrite Z. apply clamp; lra.
Qed.
Lemma ordered_in : forall es b e, ordered b es -> In e es -> fst e <= b.
Proof. induction es as [|(t, v) es IH]; intros b e O I; [destruct I|]. destruct O as (A & O). destruct I as [<-|I]; [exact A|]. pose proof (IH t e O I). lra. Qed.
Lemma filter_none : forall A (f : A -> bool) l, (forall x, In x l -> f x = false) -> filter f l = [].
Proof. induction l as [|x l IH]; intros H; [reflexivity|]. cbn. rewrite (H x) by (left; auto). apply IH. intros y I. apply H. right; auto. Qed.
Lemma filter_rev' : forall A (f : A -> bool) l, filter f (rev l) = rev (filter f l).
Proof. induction l as [|x l IH]; [reflexivity|]. cbn. rewrite filter_app, IH. cbn. destruct (f x); cbn; [reflexivity | apply app_nil_r]. Qed.
Definition visible (a : animate) (now : Q) (e : Q * V) : bool := Qle_bool (left_edge a now) (fst e).
Definition point_of (a : animate) (now : Q) (p : Q * Q) (e : Q * V) : Prop := at_x a now (fst e) (fst p) /\ snd p = value_to_y V a (snd e).
Lemma points_loop : forall a now es b, usual a now -> as_level V a = false -> ordered b es -> b <= now -> (forall e, In e es -> start V (mon V a) <= fst e) ->
  Forall2 (point_of a now) (line_loop V a now b es) (filter (visible a now) es).
Proof.
  intros a now es. induction es as [|(t, v) es IH]; intros b U L O B S; [constructor|]. destruct O as (A & O). cbn [line_loop filter].
  assert (ST : start V (mon V a) <= t) by (apply (S (t, v)); left; auto). rewrite L. change (visible a now (t, v)) with (Qle_bool (left_edge a now) t).
  destruct (Qle_bool (left_edge a now) t) eqn:E.
  - apply Qle_bool_iff in E. destruct (x_shown a now t U E ltac:(lra)) as (X & D). destruct (t_to_x V a now t) as (x, d). cbn [fst snd] in X, D. subst d. destruct (t_to_x V a now b) as (xl, d0). cbn [app andb].
    constructor; [split; [exact X | reflexivity]|]. apply IH; auto; [lra | intros e I; apply S; right; auto].
  - apply qle_false in E. destruct (x_before a now t U ST E) as (X & D). destruct (t_to_x V a now t) as (x, d). cbn [snd] in D. subst d. destruct (t_to_x V a now b) as (xl, d0). cbn [app andb negb].
    rewrite filter_none; [constructor|]. intros e I. pose proof (ordered_in es t e O I) as F. unfold visible. destruct (Qle_bool (left_edge a now) (fst e)) eqn:G; [apply Qle_bool_iff in G; lra | reflexivity].
Qed.
Definition seen (a : animate) (now : Q) (p : Q * Q * V) : bool := Qle_bool (left_edge a now) (snd (fst p)).
(** a period is drawn from its end to its begin, or to the left edge *)
Definition drawn (a : animate) (now : Q) (p : Q * Q * V) : list (Q * V) := let '(b, e, v) := p in [(e, v); (Qmax b (left_edge a now), v)].
Lemma level_loop : forall a now es b, usual a now -> as_level V a = true -> ordered b es -> left_edge a now <= b -> b <= now -> (forall e, In e es -> start V (mon V a) <= fst e) ->
  Forall2 (point_of a now) (line_loop V a now b es) (flat_map (drawn a now) (filter (seen a now) (periods b es))).
Proof.
  intros a now es. induction es as [|(t, v) es IH]; intros b U L O LB B S; [constructor|]. destruct O as (A & O). cbn [line_loop periods filter].
  assert (ST : start V (mon V a) <= t) by (apply (S (t, v)); left; auto). rewrite L. change (seen a now (t, b, v)) with (Qle_bool (left_edge a now) b). rewrite (proj2 (Qle_bool_iff _ _) LB). cbn [flat_map drawn].
  destruct (x_shown a now b U LB B) as (XB & DB). destruct (t_to_x V a now b) as (xl, d0). cbn [fst snd] in XB, DB. subst d0.
  destruct (Qle_bool (left_edge a now) t) eqn:E.
  - apply Qle_bool_iff in E. destruct (x_shown a now t U E ltac:(lra)) as (X & D). destruct (t_to_x V a now t) as (x, d). cbn [fst snd] in X, D. subst d. cbn [app andb orb negb].
    constructor; [split; [exact XB | reflexivity]|]. constructor; [split; [unfold at_x; cbn [fst]; rewrite Q.max_l by lra; exact X | reflexivity]|]. apply IH; auto; [lra | intros e I; apply S; right; auto].
  - apply qle_false in E. destruct (x_before a now t U ST E) as (X & D). destruct (t_to_x V a now t) as (x, d). cbn [fst snd] in X, D. subst d. cbn [app andb orb negb].
    constructor; [split; [exact XB | reflexivity]|]. constructor; [split; [unfold at_x; cbn [fst]; rewrite Q.max_r by lra; rewrite X; ring | reflexivity]|].
    rewrite filter_none; [constructor|]. intros p I. unfold seen. assert (F : snd (fst p) <= t).
    { clear - I O. revert t I O. induction es as [|(t', v') es IH]; intros t I O; [destruct I|]. destruct O as (P & O). destruct I as [<-|I]; [apply Qle_refl|]. pose proof (IH t' I O). lra. }
    destruct (Qle_bool (left_edge a now) (snd (fst p))) eqn:G; [apply Qle_bool_iff in G; lra | reflexivity].
Qed.
Lemma usual_eq : forall a now now', now == now' -> usual a now -> ordered now' (rev (entries V (mon V a))).
Proof. intros a now now' E U. pose proof (us_order _ _ U) as O. destruct (rev (entries V (mon V a))) as [|(t, v) es]; [auto|]. destruct O as (A & O). split; [lra | auto]. Qed.

(** ** Theorems *)
(** a monitor that is shown as points: precisely the visible tallies, each at its moment and value *)
Theorem C88_points : forall a now, usual a now -> no_reset a -> as_level V a = false -> Forall2 (point_of a now) (line V a now) (rev (filter (visible a now) (entries V (mon V a)))).
Proof.
  intros a now U N L. unfold line. rewrite L. cbn [app]. rewrite <- filter_rev'. unfold no_reset in N. apply points_loop; auto; [apply (usual_eq a now); auto; lra | lra | intros e I; apply (us_start _ _ U); apply in_rev; auto].
Qed.
(** a level monitor: the line is the history that is visible, period by period from now backwards, and nothing else *)
Theorem C88_level : forall a now, usual a now -> no_reset a -> as_level V a = true ->
  Forall2 (point_of a now) (line V a now)
          ((now, match rev (entries V (mon V a)) with (_, v) :: _ => v | [] => zero V (mon V a) end) ::
           flat_map (drawn a now) (filter (seen a now) (periods (now + offset V a) (rev (entries V (mon V a)))))).
Proof.
  intros a now U N L. unfold line. rewrite L. cbn [app]. unfold no_reset in N. pose proof (left_le a now U) as (A & _ & _). constructor.
  - destruct (x_shown a now (now + offset V a) U ltac:(lra) ltac:(lra)) as (X & _). split; [|destruct (rev (entries V (mon V a))) as [|(?, ?) ?]; reflexivity]. cbn [fst]. unfold at_x in *. rewrite X. rewrite N. ring.
  - apply level_loop; auto; try lra; [apply (usual_eq a now); auto; lra | intros e I; apply (us_start _ _ U); apply in_rev; auto].
Qed.
Lemma forall2_flat : forall A B C (R : A -> B -> Prop) (f : C -> list B) cs l, Forall2 R l (flat_map f cs) -> forall c, In c cs -> exists l0 l1 l2, l = l0 ++ l1 ++ l2 /\ Forall2 R l1 (f c).
Proof.
  induction cs as [|c' cs IH]; intros l F c I; [destruct I|]. cbn in F. apply Forall2_app_inv_r in F. destruct F as (l1 & l2 & F1 & F2 & ->). destruct I as [<-|I]; [exists [], l1, l2; auto|].
  destruct (IH l2 F2 c I) as (x & y & z & -> & G). exists (l1 ++ x), y, z. rewrite <- app_assoc. auto.
Qed.
Lemma value_at_app : forall es u t v, value_at u (es ++ [(t, v)]) = if Qle_bool t u then Some v else value_at u es.
Proof. induction es as [|(t', v') es IH]; intros u t v; [reflexivity|]. cbn. rewrite IH. destruct (Qle_bool t u); [reflexivity|]. reflexivity. Qed.
Lemma value_period : forall es b u v, ordered b es -> u <= b -> value_at u (rev es) = Some v -> exists s e, In (s, e, v) (periods b es) /\ s <= u /\ u <= e.
Proof.
  induction es as [|(t, w) es IH]; intros b u v O B H; [discriminate|]. destruct O as (A & O). cbn [rev] in H. rewrite value_at_app in H. destruct (Qle_bool t u) eqn:E.
  - injection H as <-. apply Qle_bool_iff in E. exists t, b. split; [left; reflexivity | auto].
  - apply qle_false in E. destruct (IH t u v O ltac:(lra) H) as (s & e & I & ?). exists s, e. split; [right; exact I | auto].
Qed.
(** at each visible moment the line is at the height of the value of that moment *)
Theorem C88_height : forall a now u v, usual a now -> no_reset a -> as_level V a = true -> left_edge a now <= u -> u <= now -> value_at u (entries V (mon V a)) = Some v ->
  exists before after x1 x2 x, line V a now = before ++ [(x1, value_to_y V a v); (x2, value_to_y V a v)] ++ after /\ at_x a now u x /\ x2 <= x /\ x <= x1.
Proof.
  intros a now u v U N L LU UN H. pose proof (C88_level a now U N L) as F. unfold no_reset in N. inversion F as [|p q l l' P F' E1 E2]; subst. clear F.
  rewrite <- (rev_involutive (entries V (mon V a))) in H. assert (NE : now == now + offset V a) by lra. destruct (value_period _ (now + offset V a) u v (usual_eq a now _ NE U) ltac:(lra) H) as (s & e & I & SU & UE).
  assert (I' : In (s, e, v) (filter (seen a now) (periods (now + offset V a) (rev (entries V (mon V a)))))) by (apply filter_In; split; [exact I | unfold seen; cbn; apply Qle_bool_iff; lra]).
  destruct (forall2_flat _ _ _ _ _ _ _ F' _ I') as (l0 & l1 & l2 & -> & G). cbn [drawn] in G. inversion G as [|(x1, y1) q1 l3 l3' (X1 & Y1) G' E3 E4]; subst. inversion G' as [|(x2, y2) q2 l4 l4' (X2 & Y2) G'' E5 E6]; subst. inversion G''; subst. cbn [fst snd] in *. subst y1 y2.
  exists (p :: l0), l2, x1, x2, ((u - left_edge a now) * hscale V a). split; [reflexivity|]. split; [unfold at_x; reflexivity|]. unfold at_x in X1, X2. pose proof (us_scale _ _ U) as HS. rewrite X1, X2.
  split; apply Qmult_le_compat_r; try lra. assert (Qmax s (left_edge a now) <= u) by (apply Q.max_lub; auto). lra.
Qed.
(** nothing is drawn outside the frame, also after reset_now *)
Theorem C88_inside : forall a now x y, 0 <= width V a -> 0 <= height V a -> In (x, y) (line V a now) -> 0 <= x /\ x <= width V a /\ 0 <= y /\ y <= height V a.
Proof.
  intros a now x y W H. assert (CX : forall u, 0 <= fst (t_to_x V a now u) /\ fst (t_to_x V a now u) <= width V a).
  { intros u. unfold t_to_x. destruct (if Qle_bool 0 (displacement V a now) then _ else _) as (t, d). cbn [fst]. split; [apply Q.le_max_l | apply Q.max_lub; [exact W | apply Q.le_min_l]]. }
  assert (CY : forall v, 0 <= value_to_y V a v /\ value_to_y V a v <= height V a).
  { intros v. unfold value_to_y. split; [apply Q.le_max_l | apply Q.max_lub; [exact H | apply Q.le_min_l]]. }
  assert (CL : forall es lastt, In (x, y) (line_loop V a now lastt es) -> 0 <= x /\ x <= width V a /\ 0 <= y /\ y <= height V a).
  { induction es as [|(t, v) es IH]; intros lastt I; [destruct I|]. cbn [line_loop] in I. pose proof (CX t) as (A1 & A2). pose proof (CX lastt) as (B1 & B2). pose proof (CY v) as (C1 & C2).
    destruct (t_to_x V a now t) as (xx, d1). destruct (t_to_x V a now lastt) as (xl, d0). cbn [fst] in *. cbv zeta in I. repeat rewrite in_app_iff in I. destruct I as [I|[I|I]].
    - destruct (as_level V a); [|destruct I]. destruct I as [I|[]]. injection I as <- <-. auto.
    - destruct ((if as_level V a then d0 || d1 else d1) && negb (as_level V a)); [destruct I|]. destruct I as [I|[]]. injection I as <- <-. auto.
    - destruct (if as_level V a then d0 || d1 else d1); [destruct I | apply (IH t); exact I]. }
  intros I. unfold line in I. cbv zeta in I. rewrite in_app_iff in I. destruct I as [I|I]; [|eapply CL; exact I]. destruct (as_level V a); [|destruct I]. destruct I as [I|[]]. injection I as <- <-.
  destruct (CX (now + offset V a)) as (A1 & A2). destruct (CY (match rev (entries V (mon V a)) with (_, v) :: _ => v | [] => zero V (mon V a) end)) as (B1 & B2). auto.
Qed.
(** the vertical line for now is at the place of now (where the line of a level monitor ends), over the whole height; also after reset_now, when the user's time is t *)
Theorem C88_now : forall a t, usual a (t + offset V a) -> at_x a (t + offset V a) (t + offset V a) (fst (fst (now_line V a t))) /\ fst (snd (now_line V a t)) = fst (fst (now_line V a t)) /\ snd (fst (now_line V a t)) = 0 /\ snd (snd (now_line V a t)) = height V a.
Proof.
  intros a t U. split; [|auto]. unfold now_line, at_x, width_div, left_edge in *. cbv zeta. cbn [fst]. destruct (Qle_bool (t + offset V a - start V (mon V a)) (width V a / hscale V a)) eqn:E; [apply Qle_bool_iff in E | apply qle_false in E].
  - rewrite Q.min_l by lra. ring.
  - rewrite Q.min_r by lra. ring.
Qed.
(** a moment that stays visible moves to the left, by as much as the time that passes when the frame is full *)
Theorem C88_scroll : forall a now now' u x x', usual a now -> usual a now' -> now <= now' -> left_edge a now' <= u -> at_x a now u x -> at_x a now' u x' ->
  x' <= x /\ (width V a / hscale V a <= now - start V (mon V a) -> x' == x - (now' - now) * hscale V a).
Proof.
  intros a now now' u x x' U U' L LU X X'. unfold at_x in *. pose proof (us_scale _ _ U) as HS. rewrite X, X'. split.
  - apply Qmult_le_compat_r; [|lra]. assert (left_edge a now <= left_edge a now'); [|lra]. unfold left_edge.
    destruct (Qle_bool (now - start V (mon V a)) (width V a / hscale V a)) eqn:E; [apply Qle_bool_iff in E | apply qle_false in E]; (destruct (Qle_bool (now' - start V (mon V a)) (width V a / hscale V a)) eqn:E'; [apply Qle_bool_iff in E' | apply qle_false in E']); lra.
  - intros F. assert (LE : left_edge a now == now - width V a / hscale V a).
    { unfold left_edge. destruct (Qle_bool (now - start V (mon V a)) (width V a / hscale V a)) eqn:E; [apply Qle_bool_iff in E; lra | reflexivity]. }
    assert (LE' : left_edge a now' == now' - width V a / hscale V a).
    { unfold left_edge. destruct (Qle_bool (now' - start V (mon V a)) (width V a / hscale V a)) eqn:E; [apply Qle_bool_iff in E; lra | reflexivity]. }
    rewrite LE, LE'. ring.
Qed.
(** the height of a value is its mapped value times the scale plus the offset, when that is in the frame; a value that is off or cannot be mapped counts as 0 *)
Theorem C88_value : forall (a : animate) v q, (is_off V (mon V a) v = false /\ vmap V a v = Some q) \/ ((is_off V (mon V a) v = true \/ vmap V a v = None) /\ q = 0) ->
  let y := q * vscale V a + voffset V a in
  (0 <= y -> y <= height V a -> value_to_y V a v == y) /\ (height V a < y -> 0 <= height V a -> value_to_y V a v == height V a) /\ (y < 0 -> 0 <= height V a -> value_to_y V a v == 0).
Proof.
  intros a v q H y. assert (E : value_to_y V a v = Qmax 0 (Qmin (height V a) y)).
  { unfold value_to_y, y. destruct H as [(-> & ->)|([->| ->] & ->)]; [reflexivity | reflexivity|]. destruct (is_off V (mon V a) v); reflexivity. }
  rewrite E. repeat split; intros A B; [apply clamp; auto | rewrite Q.min_l by lra; apply Q.max_r; auto |]. rewrite Q.min_r by lra. apply Q.max_l. lra.
Qed.
(** the labels: each that is in the frame, at the height of its value, in the order given *)
Theorem C88_labels : forall (T : Type) (a : animate) (l : list (V * T)) t y, In (t, y) (labels V T a l) <-> exists v q, In (v, t) l /\ vmap V a v = Some q /\ y = q * vscale V a + voffset V a /\ 0 <= y /\ y <= height V a.
Proof.
  intros T a l t y. unfold labels. rewrite in_flat_map. split.
  - intros ((v, t') & I & J). cbn [fst snd] in J. destruct (vmap V a v) as [q|] eqn:E; [|destruct J]. cbv zeta in J. destruct (Qle_bool 0 (q * vscale V a + voffset V a) && Qle_bool (q * vscale V a + voffset V a) (height V a)) eqn:B; [|destruct J].
    apply andb_true_iff in B. destruct B as (B1 & B2). apply Qle_bool_iff in B1, B2. destruct J as [J|[]]. injection J as -> <-. exists v, q. auto.
  - intros (v & q & I & E & -> & B1 & B2). exists (v, t). split; [exact I|]. cbn [fst snd]. rewrite E. cbv zeta. apply Qle_bool_iff in B1, B2. rewrite B1, B2. left; reflexivity.
Qed.
Theorem C88_labels_order : forall (T : Type) (a : animate) (l1 l2 : list (V * T)), labels V T a (l1 ++ l2) = labels V T a l1 ++ labels V T a l2.
Proof. intros T a l1 l2. unfold labels. apply flat_map_app. Qed.
End Values.
(** ** Cases *)
Definition numbers (l : list (Q * Q)) : monitor Q := mkMonitor Q l 0 (fun _ => false) 0.
Definition frame (l : list (Q * Q)) (off : Q) (level : bool) : animate Q := mkAnimate Q (numbers l) off 100 75 1 5 2 (fun q => Some q) level.
Definition tallies : list (Q * Q) := [(0, 0); (30, 4); (80, 20); (150, 7)].
Example C88_usual : forall level, usual Q (frame tallies 0 level) 200.
Proof.
  intros level. split; try (vm_compute; congruence).
  - cbn. repeat split; vm_compute; congruence.
  - intros e I. cbn in I. destruct I as [<-|[<-|[<-|[<-|[]]]]]; vm_compute; congruence.
Qed.
(** the tally at 30 has left the frame; 20 is too high for the frame *)
Example C88_case : map (fun p => (Qred (fst p), Qred (snd p))) (line Q (frame tallies 0 true) 200) = [(100, 37); (100, 37); (50, 37); (50, 75); (0, 75)].
Proof. vm_compute. reflexivity. Qed.
Example C88_case_points : map (fun p => (Qred (fst p), Qred (snd p))) (line Q (frame tallies 0 false) 200) = [(50, 37)].
Proof. vm_compute. reflexivity. Qed.
Example C88_case_value : value_at Q 120 tallies = Some 20 /\ left_edge Q (frame tallies 0 true) 200 == 100 /\ Qred (fst (fst (now_line Q (frame tallies 0 true) 200))) = 100.
Proof. vm_compute. auto. Qed.
Example C88_case_labels : labels Q nat (frame tallies 0 true) [(0, 1%nat); (10, 2%nat); (20, 3%nat)] = [(1%nat, 0 * 5 + 2); (2%nat, 10 * 5 + 2)].
Proof. vm_compute. reflexivity. Qed.
(** *** After reset_now
    displacement_t is calculated with the time of the user and the start of the monitor, that does not follow reset_now: the line no longer scrolls. *)
Definition tallied_in_view (a : animate Q) (t : Q) : Prop := (* the user's time is t, so internally t + offset *)
  forall e, In e (entries Q (mon Q a)) -> left_edge Q a (t + offset Q a) <= fst e -> exists p, In p (line Q a t) /\ at_x Q a (t + offset Q a) (fst e) (fst p).
Theorem C88_reset_refuted : exists a t, usual Q a (t + offset Q a) /\ as_level Q a = true /\ ~ tallied_in_view a t /\ tallied_in_view (frame (entries Q (mon Q a)) 0 true) (t + offset Q a).
Proof.
  exists (frame tallies 150 true), 50. split; [|split; [reflexivity|split]].
  - split; try (vm_compute; congruence).
    + cbn. repeat split; vm_compute; congruence.
    + intros e I. cbn in I. destruct I as [<-|[<-|[<-|[<-|[]]]]]; vm_compute; congruence.
  - intros H. destruct (H (150, 7)) as (p & I & X); [cbn; tauto | vm_compute; congruence|]. revert X. unfold at_x. 
    assert (E : (fst (150, 7) - left_edge Q (frame tallies 150 true) (50 + offset Q (frame tallies 150 true))) * hscale Q (frame tallies 150 true) == 50) by (vm_compute; reflexivity). rewrite E. intros X.
    assert (F : forallb (fun p => negb (Qeq_bool (fst p) 50)) (line Q (frame tallies 150 true) 50) = true) by (vm_compute; reflexivity).
    rewrite forallb_forall in F. specialize (F p I). apply Qeq_bool_iff in X. rewrite X in F. discriminate.
  - intros e I L. cbn in I. destruct I as [<-|[<-|[<-|[<-|[]]]]]; try (exfalso; apply L; vm_compute; reflexivity).
    exists (nth 2 (line Q (frame tallies 0 true) 200) (0, 0)). split; [vm_compute; tauto | vm_compute; reflexivity].
Qed.
(** *** is_removed *)
Theorem C88_show : forall o objs, In o (show o objs) /\ ~ In o (remove o objs) /\ (forall p, p <> o -> (In p (show o objs) <-> In p objs) /\ (In p (remove o objs) <-> In p objs)).
Proof.
  intros o objs. split; [|split].
  - unfold show. destruct (existsb (Nat.eqb o) objs) eqn:E; [|left; auto]. apply existsb_exists in E. destruct E as (x & I & E). apply Nat.eqb_eq in E. subst. auto.
  - unfold remove. rewrite filter_In. intros (_ & E). rewrite Nat.eqb_refl in E. discriminate.
  - intros p N. split.
    + unfold show. destruct (existsb (Nat.eqb o) objs); [tauto|]. cbn. split; [intros [->|H]; [congruence | auto] | auto].
    + unfold remove. rewrite filter_In. split; [tauto|]. intros I. split; auto. apply negb_true_iff. apply Nat.eqb_neq. auto.
Qed.
(** is_removed says that an object that is shown was removed, and the other way round *)
Theorem C88_removed_refuted : (exists o objs, In o objs /\ is_removed o objs = true) /\ forall o objs, is_removed o (show o objs) = true /\ is_removed o (remove o objs) = false.
Proof.
  split; [exists 1%nat, [1%nat]; split; [left; reflexivity | reflexivity]|].
  intros o objs. pose proof (C88_show o objs) as (A & B & _). unfold is_removed. split; [apply existsb_exists; exists o; split; [exact A | apply Nat.eqb_refl]|].
  destruct (existsb (Nat.eqb o) (remove o objs)) eqn:E; [|reflexivity]. exfalso. apply existsb_exists in E. destruct E as (x & I & E). apply Nat.eqb_eq in E. subst. auto.
Qed.
Print Assumptions C88_points. Print Assumptions C88_level. Print Assumptions C88_height. Print Assumptions C88_inside. Print Assumptions C88_now. Print Assumptions C88_scroll. Print Assumptions C88_value. Print Assumptions C88_labels. Print Assumptions C88_labels_order.
Print Assumptions C88_reset_refuted. Print Assumptions C88_show. Print Assumptions C88_removed_refuted.
