(** PeriodMonitor. Modelled (salabim.py): PeriodMonitor 24497-24576 (new_tally, new_reset, __init__), _PeriodComponent.process 24487-24494, the
    check on generators in Component.__init__ 7172-7180. Not modelled: names, remove, a second PeriodMonitor on the same monitor, other monitors of the
    environment. The component that changes the period is modelled by the moment of its next event; the scheduler does not let time pass that
    moment (C01, C02). *)
From Coq Require Import QArith Lqa List Bool Arith ZArith Lia.
From Verif Require Import Base Util Mon.
Import ListNotations.
Open Scope Q_scope.

(** m, perperiod, iperiod of a PeriodMonitor; how many times the loop of 24488 was passed (the position in itertools.cycle); the time of the next event
    of the period component *)
Record per := mkPer { p_m : mon; p_pp : list mon; p_i : nat; p_k : nat; p_next : Q }.
Definition with_m (m : mon) (p : per) : per := mkPer m (p_pp p) (p_i p) (p_k p) (p_next p).
Fixpoint repl {A} (i : nat) (x : A) (l : list A) : list A := match l, i with [], _ => [] | _ :: t, O => x :: t | y :: t, S i => y :: repl i x t end.
Definition with_pp (i : nat) (q : mon) (p : per) : per := mkPer (p_m p) (repl i q (p_pp p)) (p_i p) (p_k p) (p_next p).

(** __init__ 24549-24576; 7172-7180: the process of the period component is a generator. The monitors per period are not on. *)
Definition new_period (yieldless : bool) (periods : list Q) (v : menv) (m : mon) : mres per :=
  if yieldless then Mer MValue else
  match create (m_level m) TAny false false (Num 0) v with
  | (q, Mok _) => Mok (mkPer m (repeat q (length periods)) 0 0 (v_now v))
  | (_, Mer e) => Mer e
  end.
(** do something with the monitor of period i *)
Definition on_pp (i : nat) (f : mon -> mon * mres unit) (p : per) : per * mres unit :=
  match nth_error (p_pp p) i with
  | None => (p, Mer MIndex)
  | Some q => let '(q', r) := f q in (with_pp i q' p, r)
  end.
(** new_tally 24524-24527 *)
Definition p_tally (x : val) (w : Q) (v : menv) (p : per) : per * mres unit :=
  match on_pp (p_i p) (tally x w v) p with
  | (p1, Mok _) => let '(m', r) := tally x w v (p_m p1) in (with_m m' p1, r)
  | r => r
  end.
(** new_reset 24530-24536 *)
Fixpoint reset_all (so : option bool) (v : menv) (l : list mon) : list mon * mres unit :=
  match l with
  | [] => ([], Mok tt)
  | q :: t => match reset None so v q with
              | (q', Mok _) => let '(t', r) := reset_all so v t in (q' :: t', r)
              | (q', Mer e) => (q' :: t, Mer e)
              end
  end.
Definition p_reset (mo so : option bool) (v : menv) (p : per) : per * mres unit :=
  match reset_all so v (p_pp p) with
  | (l, Mok _) => let '(m', r) := reset mo so v (p_m p) in (mkPer m' l (p_i p) (p_k p) (p_next p), r)
  | (l, Mer e) => (mkPer (p_m p) l (p_i p) (p_k p) (p_next p), Mer e)
  end.
(** the parent is turned on or off: Monitor.monitor, not intercepted *)
Definition p_monitor (b : bool) (v : menv) (p : per) : per * mres unit :=
  let '(m', r) := monitor (Some b) v (p_m p) in (with_m m' p, r).
(** one pass through the loop of 24488-24494 *)
Definition p_change (periods : list Q) (v : menv) (p : per) : per * mres unit :=
  match on_pp (p_i p) (monitor (Some false) v) p with
  | (p1, Mok _) =>
      let i := (p_k p mod length periods)%nat in
      match nth_error periods i with
      | None => (p1, Mer MIndex)
      | Some d =>
          let p2 := mkPer (p_m p1) (p_pp p1) i (p_k p1) (p_next p1) in
          match (if m_level (p_m p2) then match call None v (p_m p2) with Mok x => on_pp i (tally x 1 v) p2 | Mer e => (p2, Mer e) end else (p2, Mok tt)) with
          | (p3, Mok _) =>
              match on_pp i (monitor (Some true) v) p3 with
              | (p4, Mok _) => (mkPer (p_m p4) (p_pp p4) i (S (p_k p4)) (v_now v + d), Mok tt)
              | r => r
              end
          | r => r
          end
      end
  | r => r
  end.

(** what can happen; PClock: time passes, PZero: env.reset_now *)
Inductive pop := PTally (x : val) (w : Q) | PMonitor (b : bool) | PReset (mo so : option bool) | PClock (dt : Q) | PZero (off : Q) | PChange.
Definition pexec (periods : list Q) (o : pop) (s : menv * per) : (menv * per) * mres unit :=
  let '(v, p) := s in
  match o with
  | PTally x w => let '(p', r) := p_tally x w v p in ((v, p'), r)
  | PMonitor b => let '(p', r) := p_monitor b v p in ((v, p'), r)
  | PReset mo so => let '(p', r) := p_reset mo so v p in ((v, p'), r)
  | PClock dt => ((mkMenv (v_now v + dt) (v_off v), p), Mok tt)
  | PZero off => ((mkMenv (v_now v) off, p), Mok tt)
  | PChange => let '(p', r) := p_change periods v p in ((v, p'), r)
  end.
