(** Component generators. Modelled: ComponentGenerator.__init__, do_spread, do_iat, do_iat_disturbance and their yieldless versions, do_finalize
    (salabim.py 20439-20731), with the lines of Component.__init__, hold, activate and _reschedule they use (7206-7219, 7813-7831, 7716-7723, 7524-7532).
    Times are exact rationals or infinity. [now] and [off] are env._now and env._offset; a time that a user sees is the internal time minus the offset.
    A run of a generator is a sequence of resumptions, each at the time for which the generator is scheduled (the kernel, KernelA.v and others, has theorems on that);
    between two of them the environment may be given another offset by reset_now (13139-13162).
    Not modelled: the class of the components (a callable or a distribution of them), names, trace, kwargs, times given as strings or datetimes; default_cap_now is False. *)
From Coq Require Import QArith Qminmax Lqa List Bool Arith ZArith Lia.
From Verif Require Import Base Util.
Import ListNotations.
Open Scope Q_scope.

Inductive gexn := GValue | GType.
Inductive gres (A : Type) := GOk (a : A) | GEr (e : gexn).
Arguments GOk {A} a. Arguments GEr {A} e.
Definition gbind {A B} (m : gres A) (k : A -> gres B) : gres B := match m with GOk a => k a | GEr e => GEr e end.

(** an iat or a disturbance: a number, or a callable, given by the values that its calls return *)
Inductive draw := DNum (q : Q) | DCall (f : nat -> Q).
(** "self.iat() if callable(self.iat) else self.iat" (20569-20572, 20614-20617, 20628-20637): the k-th call *)
Definition drawn (d : draw) (k : nat) : Q := match d with DNum q => q | DCall f => f k end.
Definition truthy (d : option draw) : bool := match d with None => false | Some (DNum q) => negb (Qeq_bool q 0) | Some (DCall _) => true end.
Definition nonzero (q : option Q) : bool := match q with None => false | Some q => negb (Qeq_bool q 0) end.
Definition xnonzero (q : option xq) : bool := match q with None => false | Some (Fin q) => negb (Qeq_bool q 0) | Some PInf => true end.

(** the arguments of ComponentGenerator(...) 20439-20459 *)
Record gargs := mkga {
  a_at : option Q; a_delay : option Q; a_till : option xq; a_dur : option xq; a_number : option Z; a_iat : option draw;
  a_force_at : bool; a_force_till : bool; a_dist : option draw; a_equi : bool; a_moments : option (list Q) }.

(** the process of the generator; PData: none (20523); PSpread0: do_spread not started yet; PDone: ended *)
Inductive proc := PData | PSpread0 | PSpread | PIat | PDist | PFinal | PDone.
(** g_sched: the time for which it is scheduled; g_number: None for inf; g_iatk, g_distk: the number of calls of iat and disturbance so far; g_n: the local variable n *)
Record gen := mkgen { g_proc : proc; g_sched : Q; g_till : xq; g_number : option Z; g_iat : draw; g_iatk : nat; g_dist : draw; g_distk : nat; g_force : bool; g_intervals : list Q; g_n : Z }.

Fixpoint insq (x : Q) (l : list Q) : list Q := match l with [] => [x] | y :: l' => if Qltb x y then x :: l else y :: insq x l' end.
Fixpoint sortq (l : list Q) : list Q := match l with [] => [] | x :: l' => insq x (sortq l') end.
Fixpoint all_some {A} (l : list (option A)) : option (list A) :=
  match l with [] => Some [] | Some x :: l => option_map (cons x) (all_some l) | None :: _ => None end.
(** "[t1 - t0 for t0, t1 in zip([0] + moments, moments)]" 20544 *)
Fixpoint diffs (t0 : Q) (l : list Q) : list Q := match l with [] => [] | t1 :: l => (t1 - t0) :: diffs t1 l end.
Definition lastq (l : list Q) : Q := last l 0.

(** Uniform(at, till)() 20532: [till] None: the upper bound is at (Uniform.__init__ 21610-21618); [u]: the random number *)
Definition spread_one (at_ : Q) (till : option Q) (u : Q) : Q := let hi := match till with None => at_ | Some t => t end in at_ + (hi - at_) * u.
(** the moments of a random spread 20526-20543: [us] the random numbers of the calls; till: the argument *)
Definition spread_moments (at_ : Q) (till : option Q) (number : nat) (fa ft : bool) (us : nat -> Q) : gres (list Q) :=
  if (match till with None => false | Some t => Qltb t at_ end) then GEr GValue else
  let moments := sortq (map (fun i => spread_one at_ till (us i)) (seq 0 number)) in
  if fa || ft then
    if (number =? 1)%nat then
      if fa && ft then GEr GValue else if fa then GOk [at_] else match till with Some t => GOk [t] | None => GEr GType end
    else
      let v_at := if fa then Some at_ else hd_error moments in
      let v_till := if ft then till else Some (lastq moments) in
      match all_some (map (fun m => interpolate1 m (Fin (hd 0 moments)) (Fin (lastq moments)) v_at v_till) moments) with Some l => GOk l | None => GEr GType end
  else GOk moments.

(** the schedule made by Component.__init__(at=at) 7211-7219 with _reschedule 7525-7532 *)
Definition start (now off at_ : Q) (g : Q -> gen) : gres gen := if Qltb (at_ + off) now then GEr GValue else GOk (g (at_ + off)).

(** the processes with intervals 20544-20547 *)
Definition new_spread (now off : Q) (till : xq) (number : option Z) (fa : bool) (moments : list Q) : gres gen :=
  match diffs 0 moments with
  | [] => GEr GValue
  | i0 :: is => start now off i0 (fun t => mkgen PSpread0 t till number (DNum 0) 0 (DNum 0) 0 fa (0 :: is) 0)
  end.
(** the processes with an iat 20565-20580; [dist]: a disturbance that is not falsy *)
Definition new_iat (now off at_ : Q) (till : xq) (number : option Z) (iat : draw) (fa ft : bool) (dist : option draw) (self_force_at : bool) : gres gen :=
  if ft then GEr GValue else
  let '(at1, k) := if fa then (at_, 0%nat) else match dist with Some _ => (at_, 0%nat) | None => (at_ + drawn iat 0, 1%nat) end in
  match till with
  | Fin t => if Qltb t at1 then start now off t (fun x => mkgen PFinal x till number iat k (DNum 0) 0 self_force_at [] 0)
             else start now off at1 (fun x => mkgen (match dist with Some _ => PDist | None => PIat end) x till number iat k (match dist with Some d => d | None => DNum 0 end) 0 self_force_at [] 0)
  | PInf => start now off at1 (fun x => mkgen (match dist with Some _ => PDist | None => PIat end) x till number iat k (match dist with Some d => d | None => DNum 0 end) 0 self_force_at [] 0)
  end.
(** ComponentGenerator.__init__ 20472-20583 *)
Definition new_gen (now off : Q) (us : nat -> Q) (a : gargs) : gres gen :=
  let dist := if truthy (a_dist a) then a_dist a else None in
  if (match a_moments a with
      | None => false
      | Some _ => nonzero (a_at a) || nonzero (a_delay a) || xnonzero (a_till a) || xnonzero (a_dur a) || (match a_number a with None => false | Some n => negb (n =? 0)%Z end) || truthy (a_iat a)
                  || a_force_at a || a_force_till a || truthy (a_dist a) || a_equi a
      end) then GEr GValue else
  if (match dist, a_iat a with Some _, None => negb (a_equi a) | _, _ => false end) then GEr GValue else
  match a_at a, a_delay a with
  | Some _, Some _ => GEr GValue
  | oat, odelay =>
    let delay := match odelay with None => 0 | Some d => d end in
    let at_ := match oat with None => now + delay | Some t => t + off end in
    gbind (match a_till a, a_dur a with
           | None, None => GOk PInf
           | None, Some d => GOk (xadd (Fin at_) d)
           | Some t, None => GOk (xadd t (Fin off))
           | Some _, Some _ => GEr GValue
           end) (fun till =>
    if xltb till (Fin at_) then GEr GValue else
    if (match a_number a with None => false | Some n => (n <? 0)%Z end) then GEr GValue else
    if (match a_number a with None => false | Some n => (n <? 1)%Z end) then GOk (mkgen PData now till (a_number a) (DNum 0) 0 (DNum 0) 0 (a_force_at a) [] 0) else
    match a_moments a with
    | Some (m :: ms) => new_spread now off till (a_number a) (a_force_at a) (sortq (m :: ms))
    | _ =>
      match a_iat a, a_equi a with
      | None, false =>
        match a_till a, a_number a with
        | Some PInf, _ => GEr GValue
        | _, None => GEr GValue
        | t, Some n => match a_dist a with
                       | Some _ => GEr GValue
                       | None => gbind (spread_moments at_ (match t with Some (Fin q) => Some q | _ => None end) (Z.to_nat n) (a_force_at a) (a_force_till a) us) (new_spread now off till (a_number a) (a_force_at a))
                       end
        end
      | Some _, true => GEr GValue
      | None, true =>
        match till with
        | PInf => GEr GValue
        | Fin t => match a_number a with
                   | Some n => if (n =? 1)%Z then GEr GValue else new_iat now off at_ PInf (a_number a) (DNum ((t - at_) / inject_Z (n - 1))) true false dist (a_force_at a)
                   | None => new_iat now off at_ PInf (a_number a) (DNum 0) true false dist (a_force_at a)
                   end
        end
      | Some iat, false => new_iat now off at_ till (a_number a) iat (a_force_at a) (a_force_till a) dist (a_force_at a)
      end
    end)
  end.

(** what a generator does: create a component that starts at the given (internal) time, call at_end *)
Inductive act := Create (t : Q) | AtEnd.
Definition w_sched (p : proc) (t : Q) (g : gen) : gen := mkgen p t (g_till g) (g_number g) (g_iat g) (g_iatk g) (g_dist g) (g_distk g) (g_force g) (g_intervals g) (g_n g).
Definition ended (g : gen) : gen := w_sched PDone (g_sched g) g.
(** hold, activate: _reschedule 7525-7532 *)
Definition resched (now t : Q) (p : proc) (g : gen) : gres gen := if Qltb t now then GEr GValue else GOk (w_sched p t g).
(** "n >= self.number" *)
Definition enough (g : gen) (n : Z) : bool := match g_number g with None => false | Some m => (m <=? n)%Z end.
Definition w_count (k d : nat) (n : Z) (g : gen) : gen := mkgen (g_proc g) (g_sched g) (g_till g) (g_number g) (g_iat g) k (g_dist g) d (g_force g) (g_intervals g) n.
Definition w_int (l : list Q) (g : gen) : gen := mkgen (g_proc g) (g_sched g) (g_till g) (g_number g) (g_iat g) (g_iatk g) (g_dist g) (g_distk g) (g_force g) l (g_n g).
Definition beyond (g : gen) (t : Q) : bool := match g_till g with PInf => false | Fin x => Qltb x t end.
Definition till_of (g : gen) : Q := match g_till g with PInf => 0 | Fin x => x end.
(** one resumption at time [now] (= g_sched) with offset [off]: what is done, and how it continues.
    do_spread 20585-20597, do_iat 20599-20621, do_iat_disturbance 20623-20655, do_finalize 20729-20731 *)
Definition resume (off : Q) (g : gen) : list act * gres gen :=
  let now := g_sched g in
  match g_proc g with
  | PData | PDone => ([], GOk g)
  | PFinal => ([AtEnd], GOk (ended g))
  | PSpread0 => match g_intervals g with [] => ([AtEnd], GOk (ended g)) | i :: l => ([], resched now (now + i) PSpread (w_int l g)) end
  | PSpread => match g_intervals g with [] => ([Create now; AtEnd], GOk (ended g)) | i :: l => ([Create now], resched now (now + i) PSpread (w_int l g)) end
  | PIat =>
    let n := (g_n g + 1)%Z in
    if enough g n then ([Create now; AtEnd], GOk (ended (w_count (g_iatk g) (g_distk g) n g))) else
    let t := now + drawn (g_iat g) (g_iatk g) in
    let g1 := w_count (Datatypes.S (g_iatk g)) (g_distk g) n g in
    if beyond g t then ([Create now], resched now (till_of g + off) PFinal g1) else ([Create now], resched now (t + off) PIat g1)
  | PDist =>
    let iat := drawn (g_iat g) (g_iatk g) in
    let d := drawn (g_dist g) (g_distk g) in
    let at_ := if g_force g then now + d else now + iat + d in
    let g1 := w_count (Datatypes.S (g_iatk g)) (Datatypes.S (g_distk g)) (g_n g) g in
    if beyond g at_ then ([], resched now (till_of g + off) PFinal g1) else
    if Qltb (at_ + off) now then ([], GEr GValue) else
    let n := (g_n g + 1)%Z in
    let g2 := w_count (Datatypes.S (g_iatk g)) (Datatypes.S (g_distk g)) n g in
    if enough g n then ([Create (at_ + off)], GOk (ended g2)) else ([Create (at_ + off)], resched now (now + iat + off) PDist g2)
  end.
(** [n] resumptions, [offs i]: the offset at the i-th one; what is done, with the times, and the last state or the exception *)
Fixpoint grun (offs : nat -> Q) (i n : nat) (g : gen) : list (Q * act) * gres gen :=
  match n with
  | O => ([], GOk g)
  | Datatypes.S n =>
    let '(acts, r) := resume (offs i) g in
    let here := map (fun a => (g_sched g, a)) acts in
    match r with
    | GEr e => (here, GEr e)
    | GOk g1 => let '(l, r1) := grun offs (Datatypes.S i) n g1 in (here ++ l, r1)
    end
  end.
