(** Trajectories, salabim.py 5907-6972. Modelled: _Movement 5907-5959, _Trajectory.in_trajectory 5964, TrajectoryMerged 6018-6043 with x, y, angle and length 6048-6169, TrajectoryStandstill 6221-6339,
    TrajectoryPolygon 6534-6565 (without spline) with indexes, x, y, angle and length 6571-6697, TrajectoryCircle 6790-6818 with x, y, angle and length 6823-6949, and of the utilities interp
    25069-25119 for two points and searchsorted 24964-24997.
    Numbers are real numbers (no rounding of floats); infinite accelerations are None. Simplified: a polygon is a list of points (a trailing coordinate without partner is ignored in the code); the
    orientation is a function of the angle or a constant, given here as a function; lru_cache (which only remembers results) is left out; searchsorted on a non-decreasing list is the number of elements
    before v (what bisect_left gives, see C54 for the search itself). Not modelled: splines, __add__ with other types, rendered_polygon. *)
From Coq Require Import Reals Lra List.
Import ListNotations.
Open Scope R_scope.

Inductive terr := TValue | TZero | TType | TIndex | TUnbound.
Inductive tres (A : Type) := TOk (a : A) | TEr (e : terr).
Arguments TOk {A}. Arguments TEr {A}.

(** ** _Movement 5907-5959 *)
Record movement := mkMove { mv_l0 : R; mv_l : R; mv_l1 : R; mv_t0 : R; mv_tv : R; mv_t1 : R; mv_t : R; mv_v0 : R; mv_vmax : R; mv_acc : option R; mv_dec : option R }.
(** 1 / (2 * acc) 5921 *)
Definition inv2 (a : option R) : R := match a with None => 0 | Some a => 1 / (2 * a) end.
(** (vmax - v0) / acc 5935 *)
Definition over (x : R) (a : option R) : R := match a with None => 0 | Some a => x / a end.
Definition is0 (a : option R) : bool := match a with None => false | Some a => if Req_EM_T a 0 then true else false end.
Definition dflt {A} (d : A) (x : option A) : A := match x with Some x => x | None => d end.
(** __init__ 5909-5942; None: not given *)
Definition new_movement (length : R) (vmax v0 v1 acc dec : option R) : tres movement :=
  let vm := dflt 1 vmax in
  let v0 := dflt vm v0 in
  let v1 := dflt vm v1 in
  if orb (is0 acc) (is0 dec) then TEr TZero else
  let a2 := inv2 acc in
  let d2 := inv2 dec in
  let s0 := (vm * vm - v0 * v0) * a2 in
  let s1 := (vm * vm - v1 * v1) * d2 in
  let fin (vm : R) : tres movement :=
    let l0 := (vm * vm - v0 * v0) * a2 in
    let l1 := (vm * vm - v1 * v1) * d2 in
    let l := length - l0 - l1 in
    if Rlt_dec l0 0 then TEr TValue else if Rlt_dec l1 0 then TEr TValue else
    if Req_EM_T vm 0 then TEr TZero else
    let t0 := over (vm - v0) acc in
    let tv := l / vm in
    let t1 := over (vm - v1) dec in
    TOk (mkMove l0 l l1 t0 tv t1 (t0 + tv + t1) v0 vm acc dec) in
  if Rlt_dec length (s0 + s1) then
    if Req_EM_T (a2 + d2) 0 then TEr TZero else
    let sq := (length + v0 * v0 * a2 + v1 * v1 * d2) / (a2 + d2) in
    if Rlt_dec sq 0 then TEr TValue else fin (sqrt sq)
  else fin vm.
(** l_at_t 5944-5959 *)
Definition l_at_t (m : movement) (t : R) : R :=
  if Rlt_dec t 0 then 0 else
  let t := if Rlt_dec (mv_t m) t then mv_t m else t in
  match mv_acc m, mv_dec m with
  | None, None => mv_vmax m * t
  | acc, dec =>
    if Rlt_dec t (mv_t0 m) then match acc with Some a => mv_v0 m * t + a * (t * t) / 2 | None => 0 (* not reached: then mv_t0 m = 0 *) end else
    let t := t - mv_t0 m in
    if Rlt_dec t (mv_tv m) then mv_l0 m + t * mv_vmax m else
    let t := t - mv_tv m in
    match dec with
    | None => mv_l0 m + mv_l m + mv_vmax m * t
    | Some d => mv_l0 m + mv_l m + mv_vmax m * t - d * (t * t) / 2
    end
  end.

(** ** utilities *)
(** interp 25099-25119 for two points *)
Definition interp2 (x a b fa fb : R) : R :=
  if Rlt_dec x a then fa else if Rlt_dec b x then fb else
  if Rle_dec b x then fb else fa + (fb - fa) * (x - a) / (b - a).
(** searchsorted(a, v) 24964-24997 *)
Fixpoint searchsorted (a : list R) (v : R) : nat := match a with [] => 0%nat | x :: r => if Rlt_dec x v then S (searchsorted r v) else 0%nat end.

(** ** the trajectories *)
Inductive traj :=
| Standstill (t0 dur x y angle : R)
| Polygon (t0 : R) (pts : list (R * R)) (angles cum : list R) (m : movement)
| Circle (t0 radius xc yc angle0 angle1 len : R) (orient : option (R -> R)) (m : movement)
| Merged (ts : list traj) (t0 dur : R) (t0s cums : list R).

(** 6555: math.sqrt(dx * dx + dy * dy) *)
Definition seg (p q : R * R) : R := let dx := fst q - fst p in let dy := snd q - snd p in sqrt (dx * dx + dy * dy).
(** the lists cum_length and _angle 6537-6560; [direction dx dy]: orientation(math.degrees(math.atan2(dy, dx))), or the constant *)
Fixpoint cum_lengths (c : R) (pts : list (R * R)) : list R := match pts with p :: ((q :: _) as r) => c :: cum_lengths (c + seg p q) r | _ => [c] end.
Fixpoint directions (direction : R -> R -> R) (pts : list (R * R)) : list R := match pts with p :: ((q :: _) as r) => direction (fst q - fst p) (snd q - snd p) :: directions direction r | _ => [] end.
Definition lastR (l : list R) : R := last l 0.
(** TrajectoryPolygon.__init__ 6534-6565. A polygon of less than two points: next_x is unbound 6557 *)
Definition new_polygon (t0 : R) (pts : list (R * R)) (direction : R -> R -> R) (vmax v0 v1 acc dec : option R) : tres traj :=
  match pts with
  | _ :: _ :: _ =>
    let cum := cum_lengths 0 pts in
    let an := directions direction pts in
    match new_movement (lastR cum) vmax v0 v1 acc dec with TEr e => TEr e | TOk m => TOk (Polygon t0 pts (an ++ [lastR an]) cum m) end
  | _ => TEr TUnbound
  end.
(** TrajectoryCircle.__init__ 6806-6818 *)
Definition radians (a : R) : R := a * PI / 180.
Definition new_circle (t0 radius xc yc angle0 angle1 : R) (orient : option (R -> R)) (vmax v0 v1 acc dec : option R) : tres traj :=
  let len := Rabs (radians (angle1 - angle0)) * radius in
  match new_movement len vmax v0 v1 acc dec with TEr e => TEr e | TOk m => TOk (Circle t0 radius xc yc angle0 angle1 len orient m) end.
(** TrajectoryStandstill.__init__ 6221-6232 *)
Definition new_standstill (t0 dur x y angle : R) : traj := Standstill t0 dur x y angle.

(** _duration, _length, _t0, _t1 *)
Definition duration (tr : traj) : R := match tr with Standstill _ d _ _ _ => d | Polygon _ _ _ _ m => mv_t m | Circle _ _ _ _ _ _ _ _ m => mv_t m | Merged _ _ d _ _ => d end.
Definition length_ (tr : traj) : R := match tr with Standstill _ _ _ _ _ => 0 | Polygon _ _ _ cum _ => lastR cum | Circle _ _ _ _ _ _ len _ _ => len | Merged _ _ _ _ cums => lastR cums end.
Definition start (tr : traj) : R := match tr with Standstill t _ _ _ _ => t | Polygon t _ _ _ _ => t | Circle t _ _ _ _ _ _ _ _ => t | Merged _ t _ _ _ => t end.
Definition stop (tr : traj) : R := start tr + duration tr.
(** in_trajectory 5964 *)
Definition in_trajectory (tr : traj) (t : R) : Prop := start tr <= t <= stop tr.
(** TrajectoryMerged.__init__ 6018-6034 *)
Fixpoint runs (f : traj -> R) (c : R) (ts : list traj) : list R := match ts with [] => [] | tr :: r => c :: runs f (c + f tr) r end.
Definition sum_of (f : traj -> R) (ts : list traj) : R := fold_right (fun tr a => f tr + a) 0 ts.
Definition new_merged (ts : list traj) : tres traj :=
  match ts with
  | [] => TEr TIndex
  | tr :: _ => TOk (Merged ts (start tr) (sum_of duration ts) (runs duration (start tr) ts) (runs length_ 0 ts ++ [sum_of length_ ts]))
  end.
(** __add__ 5983-5988 *)
Definition add (a b : traj) : tres traj := new_merged [a; b].

(** TrajectoryPolygon.indexes 6571-6585; t None: the end *)
Definition indexes (t0 : R) (cum : list R) (m : movement) (t : option R) : R * nat * nat :=
  let l := l_at_t m (match t with None => mv_t m | Some t => t - t0 end) in
  let n := (List.length cum - 1)%nat in
  if Rle_dec l (hd 0 cum) then (l, 0%nat, 0%nat) else if Rle_dec (lastR cum) l then (0, n, n) else
  let i := (searchsorted cum l - 1)%nat in (l, i, S i).
Definition nthR (i : nat) (l : list R) : R := nth i l 0.
(** TrajectoryMerged.index 6037-6043 *)
Definition index (t0s : list R) (t : R) : nat :=
  if Rle_dec t (hd 0 t0s) then 0%nat else if Rle_dec (lastR t0s) t then (List.length t0s - 1)%nat else (searchsorted t0s t - 1)%nat.
Inductive axis := AxX | AxY | AxAngle.
Definition coord (a : axis) (p : R * R) : R := match a with AxY => snd p | _ => fst p end.
(** TrajectoryCircle.length(t, _t0) 6943-6949 for a number t *)
Definition circle_length (t0 : R) (m : movement) (t : R) : R :=
  let t1 := t0 + mv_t m in let t := if Rlt_dec t t0 then t0 else if Rlt_dec t1 t then t1 else t in l_at_t m (t - t0).
(** x(t), y(t), angle(t) with the argument _t0 (None: not given): Standstill 6247-6277, Polygon 6600-6633, Circle 6836-6879, Merged 6061-6100 (where _t0 is not used) *)
Fixpoint at_t (a : axis) (tr : traj) (u : option R) (t : R) {struct tr} : R :=
  match tr with
  | Standstill _ _ x y an => match a with AxX => x | AxY => y | AxAngle => an end
  | Polygon t0 pts an cum m =>
    let '(l, i, j) := indexes (dflt t0 u) cum m (Some t) in
    match a with
    | AxAngle => nthR i an
    | _ => interp2 l (nthR i cum) (nthR j cum) (coord a (nth i pts (0, 0))) (coord a (nth j pts (0, 0)))
    end
  | Circle t0 radius xc yc angle0 angle1 len orient m =>
    let l := circle_length (dflt t0 u) m t in
    let al := interp2 l 0 len angle0 angle1 in
    match a with
    | AxX => xc + radius * cos (radians al)
    | AxY => yc + radius * sin (radians al)
    | AxAngle => dflt (fun x => x) orient (if Rlt_dec angle0 angle1 then al + 90 else al - 90)
    end
  | Merged ts _ _ t0s _ =>
    let i := index t0s t in
    (fix go (ts : list traj) (k : nat) : R := match ts, k with [], _ => 0 | tr :: _, O => at_t a tr (Some (nthR i t0s)) t | _ :: r, S k => go r k end) ts i
  end.
(** length(t) 6163-6169 6339 6696-6697 6943-6949: None: t not given. A comparison of None with a number is a TypeError *)
Fixpoint length_at (tr : traj) (u : option R) (t : option R) {struct tr} : tres R :=
  match tr with
  | Standstill _ _ _ _ _ => TOk 0
  | Polygon t0 _ _ cum m => let '(l, i, j) := indexes (dflt t0 u) cum m t in TOk (nthR i cum + l)
  | Circle t0 _ _ _ _ _ _ _ m => match t with None => TEr TType | Some t => TOk (circle_length (dflt t0 u) m t) end
  | Merged ts _ _ t0s cums =>
    let i := match t with None => (List.length ts - 1)%nat | Some t => index t0s t end in
    match (fix go (ts : list traj) (k : nat) : tres R := match ts, k with [], _ => TEr TIndex | tr :: _, O => length_at tr (Some (nthR i t0s)) t | _ :: r, S k => go r k end) ts i with
    | TEr e => TEr e
    | TOk l => TOk (l + nthR i cums)
    end
  end.
