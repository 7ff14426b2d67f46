(** What a monitor is supposed to show, in terms of the history of what was done to it; only the type of values is taken from the model. *)
From Coq Require Import QArith Lqa List Bool Arith ZArith Lia.
From Verif Require Import Base Mon.
Import ListNotations.
Open Scope Q_scope.

(** what can happen to a monitor: it is made (with an initial value, on or off), a value is tallied with a weight, it is turned on or off, or reset
    (and possibly turned on or off) *)
Inductive happening := HMade (x : val) (on : bool) | HTally (x : val) (w : Q) | HSwitch (on : bool) | HReset (on : option bool).
(** a history: with times, the last one first *)
Definition hist := list (Q * happening).
(** the last value; is it on? *)
Fixpoint value_of (h : hist) : val := match h with [] => Num 0 | (_, HMade x _) :: _ => x | (_, HTally x _) :: _ => x | _ :: r => value_of r end.
Fixpoint on_of (h : hist) : bool := match h with [] => false | (_, HMade _ b) :: _ => b | (_, HSwitch b) :: _ => b | (_, HReset (Some b)) :: _ => b | _ :: r => on_of r end.
(** does the history that counts start here? *)
Definition starts (e : happening) : bool := match e with HMade _ _ | HReset _ => true | _ => false end.
(** the level at time t: the value after the last happening at or before t if the monitor was on then; nothing before the start *)
Fixpoint level_at (h : hist) (t : Q) : option val :=
  match h with
  | [] => None
  | (s, e) :: r => if Qle_bool s t then (if on_of h then Some (value_of h) else None) else if starts e then None else level_at r t
  end.
(** the integral of g(level) over the time since the start that the monitor was on, until [until] *)
Fixpoint integral (g : val -> Q) (h : hist) (until : Q) : Q :=
  match h with
  | [] => 0
  | (s, e) :: r => (if on_of h then g (value_of h) * (until - s) else 0) + (if starts e then 0 else integral g r s)
  end.
(** the time that it was on *)
Definition on_time (h : hist) (until : Q) : Q := integral (fun _ => 1) h until.
(** the values tallied while on since the start, with their times and weights, the last one first *)
Fixpoint seen (h : hist) : list (Q * val * Q) :=
  match h with
  | [] => []
  | (s, HTally x w) :: r => if on_of r then (s, x, w) :: seen r else seen r
  | (_, HSwitch _) :: r => seen r
  | _ :: _ => []
  end.
(** the start *)
Fixpoint start_of (h : hist) : Q := match h with [] => 0 | (s, e) :: r => if starts e then s else start_of r end.
(** the number that a value stands for *)
Definition number (x : val) : Q := match x with Num q => q | NegInf => 0 | Oth _ (Some q) => q | Oth _ None => 0 end.
(** sums over weighted values *)
Fixpoint total_of {A} (g : A -> Q) (l : list (A * Q)) : Q := match l with [] => 0 | (x, w) :: r => g x * w + total_of g r end.
(** weighted mean and variance *)
Definition is_mean (l : list (Q * Q)) (mu : Q) : Prop := mu * total_of (fun _ => 1) l == total_of (fun x => x) l.
Definition is_variance (l : list (Q * Q)) (mu v : Q) : Prop := v * total_of (fun _ => 1) l == total_of (fun x => (x - mu) * (x - mu)) l.
Definition is_least (l : list Q) (q : Q) : Prop := (exists x, In x l /\ x == q) /\ forall x, In x l -> q <= x.
Definition is_largest (l : list Q) (q : Q) : Prop := (exists x, In x l /\ x == q) /\ forall x, In x l -> x <= q.
(** the weighted sum of g over what was recorded, zeros left out if [ex0]: an integral over the time for a level monitor, a sum over the tallied values otherwise *)
Definition zero (x : val) : bool := Qeq_bool (number x) 0.
Definition recorded (h : hist) : list (val * Q) := map (fun p => (snd (fst p), snd p)) (rev (seen h)).
Definition area (level ex0 : bool) (g : Q -> Q) (h : hist) (now : Q) : Q :=
  let g' := fun x => if ex0 && zero x then 0 else g (number x) in if level then integral g' h now else total_of g' (recorded h).
(** the numbers with their weights of a monitor that is not a level monitor *)
Definition data (ex0 : bool) (h : hist) : list (Q * Q) := map (fun p => (number (fst p), snd p)) (filter (fun p => negb (ex0 && zero (fst p))) (recorded h)).
(** mean and variance in terms of weighted sums; no mean without weight *)
Definition mean_spec (area : (Q -> Q) -> Q) (r : option Q) : Prop := match r with None => area (fun _ => 1) == 0 | Some mu => ~ area (fun _ => 1) == 0 /\ mu * area (fun _ => 1) == area (fun x => x) end.
Definition var_spec (area : (Q -> Q) -> Q) (r : option Q) : Prop :=
  match r with None => area (fun _ => 1) == 0 | Some s => ~ area (fun _ => 1) == 0 /\ forall mu, mu * area (fun _ => 1) == area (fun x => x) -> s * area (fun _ => 1) == area (fun x => (x - mu) * (x - mu)) end.
