(** The simulation kernel: event list, component statuses and scheduling calls,
    resources, states, stores, the scheduler step.
    All line numbers refer to /repo/salabim/salabim.py.

    Simplifications (also listed in DESIGN.md):
    - times, quantities, priorities are exact rationals, possibly [PInf]; env._now is
      finite (a run till inf that has emptied the event list sets [ended]);
    - modes, tracing, animation are left out; arguments are already sampled / converted
      (spec_to_time, spec_to_duration);
    - the heap is a list from which a minimum by (time, priority, seq) is taken;
    - a queue is the list of its (component, priority) pairs (QHeap.v shows that the doubly
      linked Qmembers implement that list);
    - Python's None-dereference of a stale Qmember is the exception [AttrErr];
    - recursion between retries (and between enter/leave of a store) is cut by a fuel
      argument; running out of fuel is the exception [OutOfFuel]. *)
From Coq Require Import QArith Lqa List Bool Arith ZArith Lia.
From Verif Require Import Base.
Import ListNotations.
Open Scope Q_scope.

Definition main : nat := 0.            (* env._main, 10560 *)
Definition eps : Q := 1 # 100000000.   (* 1e-8 in 8725, 8728, 8741, 8744, 8806, 24348, 24380 *)

(** 25390-25400: the statuses *)
Inductive status :=
| Data | Current | Standby | Passive | Scheduled | Requesting | Waiting | Interrupted.

Definition steqb (a b : status) : bool :=
  match a, b with
  | Data, Data | Current, Current | Standby, Standby | Passive, Passive
  | Scheduled, Scheduled | Requesting, Requesting | Waiting, Waiting
  | Interrupted, Interrupted => true
  | _, _ => false
  end.

(** The queues the kernel works with: requesters and claimers of a resource, waiters of a
    state, a store itself and its two requesters queues. *)
Inductive qref :=
| QReq (r : nat) | QClaim (r : nat) | QWait (s : nat)
| QStore (k : nat) | QFrom (k : nat) | QTo (k : nat).

Definition qeqb (a b : qref) : bool :=
  match a, b with
  | QReq x, QReq y | QClaim x, QClaim y | QWait x, QWait y
  | QStore x, QStore y | QFrom x, QFrom y | QTo x, QTo y => Nat.eqb x y
  | _, _ => false
  end.

(** A pending event: (t, priority, seq, component), 7467 *)
Record ev := mkEv { e_t : Q; e_prio : xq; e_seq : Z; e_c : nat }.

(** The part of a Component the kernel uses, 7104-7120 *)
Record comp := mkC {
  c_status : status;               (* status.value *)
  c_sched : xq;                    (* _scheduled_time *)
  c_rem : xq;                      (* _remaining_duration *)
  c_onev : bool;                   (* _on_event_list *)
  c_ilevel : Z;                    (* _interrupt_level *)
  c_istat : status;                (* _interrupted_status *)
  c_requests : list (nat * Q);     (* _requests: resource -> quantity, in order *)
  c_oneof : bool;                  (* oneof_request *)
  c_claims : list (nat * Q);       (* _claims *)
  c_waits : list (nat * (Z -> bool));  (* _waits: (state, condition on its value) *)
  c_wall : bool;                   (* _wait_all *)
  c_cond : option ((nat -> Z) -> bool); (* _cond of wait_for, a condition on the state values *)
  c_from : list nat;               (* _from_stores *)
  c_filter : nat -> bool;          (* _from_store_filter *)
  c_fitem : option nat;            (* _from_store_item *)
  c_to : list nat;                 (* _to_stores *)
  c_titem : option nat;            (* _to_store_item *)
  c_tprio : xq;                    (* _to_store_priority *)
  c_failed : bool;                 (* _failed *)
  c_skip : bool;                   (* _skip_standby *)
  c_hasproc : bool;                (* hasattr(self, "process") *)
  c_retry : list nat               (* yieldless: rest of Component._tryrequest (8791-8792)
                                      that is executed when the component resumes *)
}.

Definition comp0 : comp :=
  mkC Data PInf (Fin 0) false 0%Z Data [] false [] [] false None [] (fun _ => true) None
      [] None (Fin 0) false false false [].

(** The part of a Resource the kernel uses, 24027-24054; the r_m fields are the present values
    (Monitor._tally) of the four level monitors *)
Record resource := mkR {
  r_cap : xq; r_claimed : Q; r_anon : bool; r_preempt : bool;
  r_hfirst : bool;                 (* _honor_only_first *)
  r_hprio : bool;                  (* _honor_only_highest_priority *)
  r_minq : xq; r_trying : bool;
  r_mcap : xq; r_mclaimed : Q; r_mavail : xq; r_mocc : Q
}.

Record env := mkE {
  now : Q;                         (* _now *)
  off : Q;                         (* _offset *)
  seq : Z;                         (* _seq *)
  evl : list ev;                   (* _event_list *)
  stby : list nat;                 (* _standbylist *)
  pend : list nat;                 (* _pendingstandbylist *)
  cur : nat;                       (* _current_component *)
  comps : nat -> comp;
  rsc : nat -> resource;
  qs : qref -> list (nat * xq);
  sval : nat -> Z;                 (* State._value *)
  kcap : nat -> xq;                (* Store.capacity._tally *)
  kmav : nat -> xq;                (* Store.available_quantity._tally *)
  eoe : bool;                      (* end_on_empty_eventlist *)
  running : bool;
  yl : bool;                       (* _yieldless *)
  defcap : bool;                   (* g._default_cap_now *)
  ended : bool                     (* _now has become inf (11202) *)
}.

(** ** Field updates *)
Definition w_status (v : status) (x : comp) := mkC v (c_sched x) (c_rem x) (c_onev x) (c_ilevel x) (c_istat x) (c_requests x) (c_oneof x) (c_claims x) (c_waits x) (c_wall x) (c_cond x) (c_from x) (c_filter x) (c_fitem x) (c_to x) (c_titem x) (c_tprio x) (c_failed x) (c_skip x) (c_hasproc x) (c_retry x).
Definition w_sched (v : xq) (x : comp) := mkC (c_status x) v (c_rem x) (c_onev x) (c_ilevel x) (c_istat x) (c_requests x) (c_oneof x) (c_claims x) (c_waits x) (c_wall x) (c_cond x) (c_from x) (c_filter x) (c_fitem x) (c_to x) (c_titem x) (c_tprio x) (c_failed x) (c_skip x) (c_hasproc x) (c_retry x).
Definition w_rem (v : xq) (x : comp) := mkC (c_status x) (c_sched x) v (c_onev x) (c_ilevel x) (c_istat x) (c_requests x) (c_oneof x) (c_claims x) (c_waits x) (c_wall x) (c_cond x) (c_from x) (c_filter x) (c_fitem x) (c_to x) (c_titem x) (c_tprio x) (c_failed x) (c_skip x) (c_hasproc x) (c_retry x).
Definition w_onev (v : bool) (x : comp) := mkC (c_status x) (c_sched x) (c_rem x) v (c_ilevel x) (c_istat x) (c_requests x) (c_oneof x) (c_claims x) (c_waits x) (c_wall x) (c_cond x) (c_from x) (c_filter x) (c_fitem x) (c_to x) (c_titem x) (c_tprio x) (c_failed x) (c_skip x) (c_hasproc x) (c_retry x).
Definition w_ilevel (v : Z) (x : comp) := mkC (c_status x) (c_sched x) (c_rem x) (c_onev x) v (c_istat x) (c_requests x) (c_oneof x) (c_claims x) (c_waits x) (c_wall x) (c_cond x) (c_from x) (c_filter x) (c_fitem x) (c_to x) (c_titem x) (c_tprio x) (c_failed x) (c_skip x) (c_hasproc x) (c_retry x).
Definition w_istat (v : status) (x : comp) := mkC (c_status x) (c_sched x) (c_rem x) (c_onev x) (c_ilevel x) v (c_requests x) (c_oneof x) (c_claims x) (c_waits x) (c_wall x) (c_cond x) (c_from x) (c_filter x) (c_fitem x) (c_to x) (c_titem x) (c_tprio x) (c_failed x) (c_skip x) (c_hasproc x) (c_retry x).
Definition w_requests (v : list (nat * Q)) (x : comp) := mkC (c_status x) (c_sched x) (c_rem x) (c_onev x) (c_ilevel x) (c_istat x) v (c_oneof x) (c_claims x) (c_waits x) (c_wall x) (c_cond x) (c_from x) (c_filter x) (c_fitem x) (c_to x) (c_titem x) (c_tprio x) (c_failed x) (c_skip x) (c_hasproc x) (c_retry x).
Definition w_oneof (v : bool) (x : comp) := mkC (c_status x) (c_sched x) (c_rem x) (c_onev x) (c_ilevel x) (c_istat x) (c_requests x) v (c_claims x) (c_waits x) (c_wall x) (c_cond x) (c_from x) (c_filter x) (c_fitem x) (c_to x) (c_titem x) (c_tprio x) (c_failed x) (c_skip x) (c_hasproc x) (c_retry x).
Definition w_claims (v : list (nat * Q)) (x : comp) := mkC (c_status x) (c_sched x) (c_rem x) (c_onev x) (c_ilevel x) (c_istat x) (c_requests x) (c_oneof x) v (c_waits x) (c_wall x) (c_cond x) (c_from x) (c_filter x) (c_fitem x) (c_to x) (c_titem x) (c_tprio x) (c_failed x) (c_skip x) (c_hasproc x) (c_retry x).
Definition w_waits (v : list (nat * (Z -> bool))) (x : comp) := mkC (c_status x) (c_sched x) (c_rem x) (c_onev x) (c_ilevel x) (c_istat x) (c_requests x) (c_oneof x) (c_claims x) v (c_wall x) (c_cond x) (c_from x) (c_filter x) (c_fitem x) (c_to x) (c_titem x) (c_tprio x) (c_failed x) (c_skip x) (c_hasproc x) (c_retry x).
Definition w_wall (v : bool) (x : comp) := mkC (c_status x) (c_sched x) (c_rem x) (c_onev x) (c_ilevel x) (c_istat x) (c_requests x) (c_oneof x) (c_claims x) (c_waits x) v (c_cond x) (c_from x) (c_filter x) (c_fitem x) (c_to x) (c_titem x) (c_tprio x) (c_failed x) (c_skip x) (c_hasproc x) (c_retry x).
Definition w_cond (v : option ((nat -> Z) -> bool)) (x : comp) := mkC (c_status x) (c_sched x) (c_rem x) (c_onev x) (c_ilevel x) (c_istat x) (c_requests x) (c_oneof x) (c_claims x) (c_waits x) (c_wall x) v (c_from x) (c_filter x) (c_fitem x) (c_to x) (c_titem x) (c_tprio x) (c_failed x) (c_skip x) (c_hasproc x) (c_retry x).
Definition w_from (v : list nat) (x : comp) := mkC (c_status x) (c_sched x) (c_rem x) (c_onev x) (c_ilevel x) (c_istat x) (c_requests x) (c_oneof x) (c_claims x) (c_waits x) (c_wall x) (c_cond x) v (c_filter x) (c_fitem x) (c_to x) (c_titem x) (c_tprio x) (c_failed x) (c_skip x) (c_hasproc x) (c_retry x).
Definition w_filter (v : nat -> bool) (x : comp) := mkC (c_status x) (c_sched x) (c_rem x) (c_onev x) (c_ilevel x) (c_istat x) (c_requests x) (c_oneof x) (c_claims x) (c_waits x) (c_wall x) (c_cond x) (c_from x) v (c_fitem x) (c_to x) (c_titem x) (c_tprio x) (c_failed x) (c_skip x) (c_hasproc x) (c_retry x).
Definition w_fitem (v : option nat) (x : comp) := mkC (c_status x) (c_sched x) (c_rem x) (c_onev x) (c_ilevel x) (c_istat x) (c_requests x) (c_oneof x) (c_claims x) (c_waits x) (c_wall x) (c_cond x) (c_from x) (c_filter x) v (c_to x) (c_titem x) (c_tprio x) (c_failed x) (c_skip x) (c_hasproc x) (c_retry x).
Definition w_to (v : list nat) (x : comp) := mkC (c_status x) (c_sched x) (c_rem x) (c_onev x) (c_ilevel x) (c_istat x) (c_requests x) (c_oneof x) (c_claims x) (c_waits x) (c_wall x) (c_cond x) (c_from x) (c_filter x) (c_fitem x) v (c_titem x) (c_tprio x) (c_failed x) (c_skip x) (c_hasproc x) (c_retry x).
Definition w_titem (v : option nat) (x : comp) := mkC (c_status x) (c_sched x) (c_rem x) (c_onev x) (c_ilevel x) (c_istat x) (c_requests x) (c_oneof x) (c_claims x) (c_waits x) (c_wall x) (c_cond x) (c_from x) (c_filter x) (c_fitem x) (c_to x) v (c_tprio x) (c_failed x) (c_skip x) (c_hasproc x) (c_retry x).
Definition w_tprio (v : xq) (x : comp) := mkC (c_status x) (c_sched x) (c_rem x) (c_onev x) (c_ilevel x) (c_istat x) (c_requests x) (c_oneof x) (c_claims x) (c_waits x) (c_wall x) (c_cond x) (c_from x) (c_filter x) (c_fitem x) (c_to x) (c_titem x) v (c_failed x) (c_skip x) (c_hasproc x) (c_retry x).
Definition w_failed (v : bool) (x : comp) := mkC (c_status x) (c_sched x) (c_rem x) (c_onev x) (c_ilevel x) (c_istat x) (c_requests x) (c_oneof x) (c_claims x) (c_waits x) (c_wall x) (c_cond x) (c_from x) (c_filter x) (c_fitem x) (c_to x) (c_titem x) (c_tprio x) v (c_skip x) (c_hasproc x) (c_retry x).
Definition w_skip (v : bool) (x : comp) := mkC (c_status x) (c_sched x) (c_rem x) (c_onev x) (c_ilevel x) (c_istat x) (c_requests x) (c_oneof x) (c_claims x) (c_waits x) (c_wall x) (c_cond x) (c_from x) (c_filter x) (c_fitem x) (c_to x) (c_titem x) (c_tprio x) (c_failed x) v (c_hasproc x) (c_retry x).
Definition w_hasproc (v : bool) (x : comp) := mkC (c_status x) (c_sched x) (c_rem x) (c_onev x) (c_ilevel x) (c_istat x) (c_requests x) (c_oneof x) (c_claims x) (c_waits x) (c_wall x) (c_cond x) (c_from x) (c_filter x) (c_fitem x) (c_to x) (c_titem x) (c_tprio x) (c_failed x) (c_skip x) v (c_retry x).
Definition w_retry (v : list nat) (x : comp) := mkC (c_status x) (c_sched x) (c_rem x) (c_onev x) (c_ilevel x) (c_istat x) (c_requests x) (c_oneof x) (c_claims x) (c_waits x) (c_wall x) (c_cond x) (c_from x) (c_filter x) (c_fitem x) (c_to x) (c_titem x) (c_tprio x) (c_failed x) (c_skip x) (c_hasproc x) v.

Definition s_now v s := mkE v (off s) (seq s) (evl s) (stby s) (pend s) (cur s) (comps s) (rsc s) (qs s) (sval s) (kcap s) (kmav s) (eoe s) (running s) (yl s) (defcap s) (ended s).
Definition s_off v s := mkE (now s) v (seq s) (evl s) (stby s) (pend s) (cur s) (comps s) (rsc s) (qs s) (sval s) (kcap s) (kmav s) (eoe s) (running s) (yl s) (defcap s) (ended s).
Definition s_seq v s := mkE (now s) (off s) v (evl s) (stby s) (pend s) (cur s) (comps s) (rsc s) (qs s) (sval s) (kcap s) (kmav s) (eoe s) (running s) (yl s) (defcap s) (ended s).
Definition s_evl v s := mkE (now s) (off s) (seq s) v (stby s) (pend s) (cur s) (comps s) (rsc s) (qs s) (sval s) (kcap s) (kmav s) (eoe s) (running s) (yl s) (defcap s) (ended s).
Definition s_stby v s := mkE (now s) (off s) (seq s) (evl s) v (pend s) (cur s) (comps s) (rsc s) (qs s) (sval s) (kcap s) (kmav s) (eoe s) (running s) (yl s) (defcap s) (ended s).
Definition s_pend v s := mkE (now s) (off s) (seq s) (evl s) (stby s) v (cur s) (comps s) (rsc s) (qs s) (sval s) (kcap s) (kmav s) (eoe s) (running s) (yl s) (defcap s) (ended s).
Definition s_cur v s := mkE (now s) (off s) (seq s) (evl s) (stby s) (pend s) v (comps s) (rsc s) (qs s) (sval s) (kcap s) (kmav s) (eoe s) (running s) (yl s) (defcap s) (ended s).
Definition s_comps v s := mkE (now s) (off s) (seq s) (evl s) (stby s) (pend s) (cur s) v (rsc s) (qs s) (sval s) (kcap s) (kmav s) (eoe s) (running s) (yl s) (defcap s) (ended s).
Definition s_rsc v s := mkE (now s) (off s) (seq s) (evl s) (stby s) (pend s) (cur s) (comps s) v (qs s) (sval s) (kcap s) (kmav s) (eoe s) (running s) (yl s) (defcap s) (ended s).
Definition s_qs v s := mkE (now s) (off s) (seq s) (evl s) (stby s) (pend s) (cur s) (comps s) (rsc s) v (sval s) (kcap s) (kmav s) (eoe s) (running s) (yl s) (defcap s) (ended s).
Definition s_sval v s := mkE (now s) (off s) (seq s) (evl s) (stby s) (pend s) (cur s) (comps s) (rsc s) (qs s) v (kcap s) (kmav s) (eoe s) (running s) (yl s) (defcap s) (ended s).
Definition s_kcap v s := mkE (now s) (off s) (seq s) (evl s) (stby s) (pend s) (cur s) (comps s) (rsc s) (qs s) (sval s) v (kmav s) (eoe s) (running s) (yl s) (defcap s) (ended s).
Definition s_kmav v s := mkE (now s) (off s) (seq s) (evl s) (stby s) (pend s) (cur s) (comps s) (rsc s) (qs s) (sval s) (kcap s) v (eoe s) (running s) (yl s) (defcap s) (ended s).
Definition s_eoe v s := mkE (now s) (off s) (seq s) (evl s) (stby s) (pend s) (cur s) (comps s) (rsc s) (qs s) (sval s) (kcap s) (kmav s) v (running s) (yl s) (defcap s) (ended s).
Definition s_running v s := mkE (now s) (off s) (seq s) (evl s) (stby s) (pend s) (cur s) (comps s) (rsc s) (qs s) (sval s) (kcap s) (kmav s) (eoe s) v (yl s) (defcap s) (ended s).
Definition s_ended v s := mkE (now s) (off s) (seq s) (evl s) (stby s) (pend s) (cur s) (comps s) (rsc s) (qs s) (sval s) (kcap s) (kmav s) (eoe s) (running s) (yl s) (defcap s) v.

Definition m_comp (c : nat) (f : comp -> comp) (s : env) : env :=
  s_comps (upd (comps s) c (f (comps s c))) s.
Definition m_rsc (r : nat) (f : resource -> resource) (s : env) : env :=
  s_rsc (upd (rsc s) r (f (rsc s r))) s.
Definition m_q (q : qref) (f : list (nat * xq) -> list (nat * xq)) (s : env) : env :=
  s_qs (fun x => if qeqb x q then f (qs s q) else qs s x) s.

(** ** Exceptions as values: state and exception monad *)
Inductive exn :=
| ValueErr | TypeErr | AttrErr | IndexErr | QueueFull | RemoveErr | RuntimeErr
| OutOfFuel | Unmodelled.
Inductive result (A : Type) := Ok (a : A) | Er (e : exn).
Arguments Ok {A}. Arguments Er {A}.

Definition M (A : Type) := env -> env * result A.
Definition ret {A} (a : A) : M A := fun s => (s, Ok a).
Definition raise {A} (e : exn) : M A := fun s => (s, Er e).
Definition bind {A B} (m : M A) (k : A -> M B) : M B :=
  fun s => match m s with
           | (s', Ok a) => k a s'
           | (s', Er e) => (s', Er e)
           end.
Definition get {A} (f : env -> A) : M A := fun s => (s, Ok (f s)).
Definition put (f : env -> env) : M unit := fun s => (f s, Ok tt).
Notation "x <- m ;; k" := (bind m (fun x => k)) (at level 61, m at next level, right associativity).
Notation "m ;;; k" := (bind m (fun _ => k)) (at level 61, right associativity).
Definition when (b : bool) (m : M unit) : M unit := if b then m else ret tt.
Fixpoint mfor {A} (l : list A) (f : A -> M unit) : M unit :=
  match l with
  | [] => ret tt
  | x :: t => f x ;;; mfor t f
  end.

Definition setc (c : nat) (f : comp -> comp) : M unit := put (m_comp c f).
Definition setr (r : nat) (f : resource -> resource) : M unit := put (m_rsc r f).
Definition stat (c : nat) : M status := get (fun s => c_status (comps s c)).

(** ** Queues at list level *)

(** _member 10040, __contains__ 5147 *)
Definition inq (c : nat) (l : list (nat * xq)) : bool := memb c (map fst l).
(** Component.priority(q) 9825, 9844 *)
Definition qprio (c : nat) (l : list (nat * xq)) : option xq := alookup c l.

(** enter 9653-9659: in front if smaller than the first; otherwise before the longest tail
    consisting of members with a larger priority *)
Fixpoint ins_tail (c : nat) (p : xq) (l : list (nat * xq)) : list (nat * xq) :=
  match l with
  | [] => [(c, p)]
  | y :: t => if forallb (fun z => xltb p (snd z)) l then (c, p) :: l else y :: ins_tail c p t
  end.
Definition ins_sorted (c : nat) (p : xq) (l : list (nat * xq)) : list (nat * xq) :=
  match l with
  | y :: _ => if xltb p (snd y) then (c, p) :: l else ins_tail c p l
  | [] => [(c, p)]
  end.

(** The ways to enter a queue: enter_sorted 9653, enter 9650, enter_at_head 9679,
    enter_in_front_of 9701, enter_behind 9724.  The new member takes the priority of its neighbour; the
    head and tail members have priority 0 (4305ff). *)
Inductive qpos := PSorted (p : xq) | PTail | PHead | PBefore (x : nat) | PBehind (x : nat).
Fixpoint ins_before (c x : nat) (l : list (nat * xq)) : list (nat * xq) :=
  match l with
  | [] => []
  | (y, p) :: t => if Nat.eqb x y then (c, p) :: (y, p) :: t else (y, p) :: ins_before c x t
  end.
Fixpoint ins_behind (c x : nat) (l : list (nat * xq)) : list (nat * xq) :=
  match l with
  | [] => []
  | (y, p) :: t => if Nat.eqb x y then (y, p) :: (c, p) :: t else (y, p) :: ins_behind c x t
  end.
Definition lastprio (l : list (nat * xq)) : xq := last (map snd l) (Fin 0).
Definition headprio (l : list (nat * xq)) : xq := hd (Fin 0) (map snd l).
Definition ins_at (c : nat) (w : qpos) (l : list (nat * xq)) : list (nat * xq) :=
  match w with
  | PSorted p => ins_sorted c p l
  | PTail => l ++ [(c, lastprio l)]
  | PHead => (c, headprio l) :: l
  | PBefore x => ins_before c x l
  | PBehind x => ins_behind c x l
  end.
(** _checkinqueue of the other component 9701, 9724 *)
Definition pos_ok (w : qpos) (l : list (nat * xq)) : bool :=
  match w with PBefore x | PBehind x => memb x (map fst l) | _ => true end.

(** successor of the member of component c: the next (component, priority) *)
Fixpoint qnext (c : nat) (l : list (nat * xq)) : option (nat * xq) :=
  match l with
  | [] => None
  | (c', _) :: t => if Nat.eqb c c' then hd_error t else qnext c t
  end.

(** Component.enter with a priority on an internal queue (9633-9660, 4221-4245);
    internal queues have infinite capacity *)
Definition q_enter (q : qref) (c : nat) (p : xq) : M unit :=
  l <- get (fun s => qs s q) ;;
  if inq c l then raise ValueErr            (* _checknotinqueue 10043 *)
  else put (m_q q (ins_sorted c p)).

(** Component.leave on an internal queue (9766-9782) *)
Definition q_leave (q : qref) (c : nat) : M unit :=
  l <- get (fun s => qs s q) ;;
  if inq c l then put (m_q q (adel c)) else raise ValueErr.   (* _checkinqueue 10050 *)

(** Component.priority(q) 9825 *)
Definition q_prio (q : qref) (c : nat) : M xq :=
  l <- get (fun s => qs s q) ;;
  match qprio c l with Some p => ret p | None => raise ValueErr end.

(** ** Event list *)

(** strict comparison of the (t, priority, seq) tuples in heapq *)
Definition ev_ltb (a b : ev) : bool :=
  Qltb (e_t a) (e_t b) ||
  (Qeq_bool (e_t a) (e_t b) &&
   (xltb (e_prio a) (e_prio b) ||
    (xeqb (e_prio a) (e_prio b) && (e_seq a <? e_seq b)%Z))).

Fixpoint ev_min (x : ev) (l : list ev) : ev :=
  match l with
  | [] => x
  | y :: t => if ev_ltb y x then ev_min y t else ev_min x t
  end.

(** remove the entry with that sequence number *)
Definition ev_del_seq (n : Z) (l : list ev) : list ev :=
  filter (fun e => negb (e_seq e =? n)%Z) l.

(** heappop: 11193 *)
Definition ev_pop (l : list ev) : option (ev * list ev) :=
  match l with
  | [] => None
  | x :: t => let m := ev_min x t in Some (m, ev_del_seq (e_seq m) l)
  end.

(** first entry of component c removed, 7474-7480 *)
Fixpoint ev_del (c : nat) (l : list ev) : option (list ev) :=
  match l with
  | [] => None
  | e :: t => if Nat.eqb (e_c e) c then Some t
              else match ev_del c t with Some t' => Some (e :: t') | None => None end
  end.

(** _push 7459-7470 (without the greenlet switch) *)
Definition push (c : nat) (t : xq) (p : xq) (urgent : bool) : M unit :=
  match t with
  | PInf => ret tt
  | Fin t =>
      put (fun s => s_seq (seq s + 1)%Z s) ;;;
      n <- get seq ;;
      setc c (w_onev true) ;;;
      put (fun s => s_evl (evl s ++ [mkEv t p (if urgent then (- n)%Z else n) c]) s)
  end.

Fixpoint remove1 (c : nat) (l : list nat) : list nat :=
  match l with
  | [] => []
  | x :: t => if Nat.eqb x c then t else x :: remove1 c t
  end.

(** _remove 7472-7486 *)
Definition remove (c : nat) : M unit :=
  b <- get (fun s => c_onev (comps s c)) ;;
  if b then
    l <- get evl ;;
    match ev_del c l with
    | Some l' => put (s_evl l') ;;; setc c (w_onev false)
    | None => raise RemoveErr
    end
  else
    st <- stat c ;;
    when (steqb st Standby)
      (put (fun s => s_stby (remove1 c (stby s)) s) ;;;
       put (fun s => s_pend (remove1 c (pend s)) s)).

(** _reschedule 7524-7551; cap_now is None / True / False *)
Definition capped (cap : option bool) (s : env) : bool :=
  match cap with Some b => b | None => defcap s end.
Definition reschedule (c : nat) (t : xq) (p : xq) (urgent : bool) (cap : option bool) : M unit :=
  past <- get (fun s => xltb t (Fin (now s))) ;;
  t' <- (if past then
           b <- get (capped cap) ;;
           (if b then get (fun s => Fin (now s)) else raise ValueErr)
         else ret t) ;;
  setc c (w_sched t') ;;;
  push c t' p urgent.

(** leave a requesters queue, and reset _minq if it became empty (7493-7495, 8782-8784) *)
Definition w_minq v (x : resource) := mkR (r_cap x) (r_claimed x) (r_anon x) (r_preempt x) (r_hfirst x) (r_hprio x) v (r_trying x) (r_mcap x) (r_mclaimed x) (r_mavail x) (r_mocc x).
Definition w_trying v (x : resource) := mkR (r_cap x) (r_claimed x) (r_anon x) (r_preempt x) (r_hfirst x) (r_hprio x) (r_minq x) v (r_mcap x) (r_mclaimed x) (r_mavail x) (r_mocc x).
Definition w_claimed v (x : resource) := mkR (r_cap x) v (r_anon x) (r_preempt x) (r_hfirst x) (r_hprio x) (r_minq x) (r_trying x) (r_mcap x) (r_mclaimed x) (r_mavail x) (r_mocc x).
Definition w_cap v (x : resource) := mkR v (r_claimed x) (r_anon x) (r_preempt x) (r_hfirst x) (r_hprio x) (r_minq x) (r_trying x) (r_mcap x) (r_mclaimed x) (r_mavail x) (r_mocc x).

Definition leave_req (c r : nat) : M unit :=
  q_leave (QReq r) c ;;;
  l <- get (fun s => qs s (QReq r)) ;;
  when (match l with [] => true | _ => false end) (setr r (w_minq PInf)).

Definition nonnil {A} (l : list A) : bool := match l with [] => false | _ => true end.

(** _check_fail 7488-7522 *)
Definition check_fail (c : nat) : M unit :=
  rq <- get (fun s => c_requests (comps s c)) ;;
  when (nonnil rq)
    (mfor (keys rq) (leave_req c) ;;; setc c (w_requests []) ;;; setc c (w_failed true)) ;;;
  ws <- get (fun s => c_waits (comps s c)) ;;
  when (nonnil ws)
    (mfor (map fst ws) (fun st =>
       l <- get (fun s => qs s (QWait st)) ;; when (inq c l) (q_leave (QWait st) c)) ;;;
     setc c (w_waits []) ;;; setc c (w_failed true)) ;;;
  fs <- get (fun s => c_from (comps s c)) ;;
  when (nonnil fs)
    (mfor fs (fun k => q_leave (QFrom k) c) ;;; setc c (w_from []) ;;; setc c (w_failed true)) ;;;
  ts <- get (fun s => c_to (comps s c)) ;;
  when (nonnil ts)
    (mfor ts (fun k => q_leave (QTo k) c) ;;; setc c (w_to []) ;;; setc c (w_failed true)).

(** _checkisnotdata 10057, _checkisnotmain 10061 *)
Definition check_notdata (c : nat) : M unit :=
  st <- stat c ;; when (steqb st Data) (raise ValueErr).
Definition check_notmain (c : nat) : M unit :=
  when (Nat.eqb c main) (raise ValueErr).

(** activate 7648-7723; [proc]: a process name was given.  [at] on the user time scale. *)
Definition activate (c : nat) (at_ : option xq) (delay : xq) (prio : xq) (urgent : bool)
    (proc keep_request keep_wait : bool) (cap : option bool) : M unit :=
  st <- stat c ;;
  let newp := proc || steqb st Data in
  hp <- get (fun s => c_hasproc (comps s c)) ;;
  (when (negb proc && steqb st Data && negb hp) (raise AttrErr)) ;;;   (* 7655 *)
  when newp (setc c (w_retry [])) ;;;            (* a new greenlet/generator 7683, 7702 *)
  when (negb (steqb st Current))
    (remove c ;;;
     when (newp || negb (keep_request || keep_wait)) (check_fail c)) ;;;
  t <- get (fun s => match at_ with
                     | None => xadd (Fin (now s)) delay
                     | Some a => xadd (xaddq a (off s)) delay
                     end) ;;
  setc c (w_status Scheduled) ;;;
  reschedule c t prio urgent cap.

(** Component.__init__ for a component with a process 7202-7219.  Every component id is a data component
    from the start; creating a data component is no operation.  [create] is meant for a [pristine] id. *)
Definition create (c : nat) (at_ : option xq) (delay : xq) (prio : xq) (urgent skip : bool)
    (cap : option bool) : M unit :=
  setc c (w_skip skip) ;;;
  t <- get (fun s => match at_ with
                     | None => xadd (Fin (now s)) delay
                     | Some a => xadd (xaddq a (off s)) delay
                     end) ;;
  setc c (w_status Scheduled) ;;;
  reschedule c t prio urgent cap.

(** the time of a duration/till specification: 7813-7824 *)
Inductive spec := SNone | SDur (d : xq) | STill (t : xq) | SBoth.

(** hold 7805-7860 *)
Definition hold (c : nat) (sp : spec) (prio : xq) (urgent : bool) (inter : Z) (cap : option bool) : M unit :=
  st <- stat c ;;
  when (negb (steqb st Passive) && negb (steqb st Current))
    (check_notdata c ;;; remove c ;;; check_fail c) ;;;
  t <- match sp with
       | SNone => get (fun s => Fin (now s))
       | SDur d => get (fun s => xadd (Fin (now s)) d)
       | STill t => get (fun s => xaddq t (off s))
       | SBoth => raise ValueErr
       end ;;
  past <- get (fun s => xltb t (Fin (now s))) ;;
  t' <- (if past then
           b <- get (capped cap) ;;
           (if b then get (fun s => Fin (now s)) else raise ValueErr)
         else ret t) ;;
  if negb (inter =? 0)%Z then
    n <- get now ;;
    setc c (w_rem (xsubq t' n)) ;;;
    setc c (w_istat Scheduled) ;;;
    setc c (w_ilevel inter) ;;;
    setc c (w_status Interrupted)
  else
    setc c (w_status Scheduled) ;;;
    reschedule c t' prio urgent cap.

(** passivate 7881-7898 *)
Definition passivate (c : nat) : M unit :=
  st <- stat c ;;
  (if steqb st Current then setc c (w_rem (Fin 0))
   else
     check_notdata c ;;; remove c ;;; check_fail c ;;;
     n <- get now ;;
     setc c (fun x => w_rem (xsubq (c_sched x) n) x)) ;;;
  setc c (w_sched PInf) ;;;
  setc c (w_status Passive).

(** interrupt 7921-7936 *)
Definition interrupt (c : nat) : M unit :=
  st <- stat c ;;
  if negb (steqb st Scheduled || steqb st Interrupted) then raise ValueErr
  else if steqb st Interrupted then setc c (fun x => w_ilevel (c_ilevel x + 1)%Z x)
  else
    check_notdata c ;;; remove c ;;;
    n <- get now ;;
    setc c (fun x => w_rem (xsubq (c_sched x) n) x) ;;;
    setc c (fun x => w_istat (c_status x) x) ;;;
    setc c (w_ilevel 1%Z) ;;;
    setc c (w_status Interrupted).

(** resume 7984-7998 *)
Definition resume (c : nat) (all : bool) (prio : xq) (urgent : bool) : M unit :=
  st <- stat c ;;
  if steqb st Interrupted then
    setc c (fun x => w_ilevel (c_ilevel x - 1)%Z x) ;;;
    lev <- get (fun s => c_ilevel (comps s c)) ;;
    if negb (lev =? 0)%Z && negb all then ret tt
    else
      setc c (fun x => w_status (c_istat x) x) ;;;
      st' <- stat c ;;
      (if steqb st' Scheduled then
         t <- get (fun s => xadd (Fin (now s)) (c_rem (comps s c))) ;;
         reschedule c t prio urgent (Some false)
       else raise RuntimeErr)
  else raise ValueErr.

(** standby 8062-8071 *)
Definition standby (c : nat) : M unit :=
  st <- stat c ;;
  when (negb (steqb st Current))
    (check_notdata c ;;; check_notmain c ;;; remove c ;;; check_fail c) ;;;
  n <- get now ;;
  setc c (w_sched (Fin n)) ;;;
  put (fun s => s_stby (stby s ++ [c]) s) ;;;
  setc c (w_status Standby).

(** remaining_duration(value) 9983-9992 *)
Definition set_remaining (c : nat) (v : xq) (prio : xq) (urgent : bool) : M unit :=
  st <- stat c ;;
  if steqb st Passive || steqb st Interrupted then setc c (w_rem v)
  else if steqb st Current then raise ValueErr
  else if steqb st Standby then raise ValueErr
  else
    remove c ;;;
    t <- get (fun s => xadd v (Fin (now s))) ;;
    reschedule c t prio urgent (Some false).
(** remaining_duration() 9994-9999 *)
Definition remaining (s : env) (c : nat) : xq :=
  match c_status (comps s c) with
  | Passive | Interrupted => c_rem (comps s c)
  | Scheduled | Waiting | Requesting => xsubq (c_sched (comps s c)) (now s)
  | _ => Fin 0
  end.

(** ** Resources *)

Definition avail (x : resource) : xq := xsubq (r_cap x) (r_claimed x).

(** one resource of honor_all / honor_any 8719-8729, 8734-8745 *)
Definition honor_one (c r : nat) (q : Q) : M bool :=
  R <- get (fun s => rsc s r) ;;
  l <- get (fun s => qs s (QReq r)) ;;
  notfirst <- (if r_hfirst R then
                 match l with
                 | [] => raise IndexErr                      (* r._requesters[0] *)
                 | (h, _) :: _ => ret (negb (Nat.eqb h c))
                 end
               else ret false) ;;
  if (notfirst : bool) then ret false else
  p <- q_prio (QReq r) c ;;
  let p1 := match l with [] => Fin 0 | (_, x) :: _ => x end in   (* _head.successor.priority *)
  if r_hprio R && negb (xeqb p p1) then ret false
  else if Qltb 0 q then ret (negb (xltb (xaddq (avail R) eps) (Fin q)))
  else ret (negb (Qltb (r_claimed R + eps) (- q))).

(** honor_all 8717-8730 *)
Fixpoint honor_all_from (c : nat) (rq : list (nat * Q)) : M bool :=
  match rq with
  | [] => ret true
  | (r, q) :: t => b <- honor_one c r q ;; if (b : bool) then honor_all_from c t else ret false
  end.
Definition honor_all (c : nat) : M (list nat) :=
  rq <- get (fun s => c_requests (comps s c)) ;;
  b <- honor_all_from c rq ;;
  ret (if (b : bool) then keys rq else []).
(** honor_any 8732-8746 *)
Fixpoint honor_any_from (c : nat) (rq : list (nat * Q)) : M (list nat) :=
  match rq with
  | [] => ret []
  | (r, q) :: t => b <- honor_one c r q ;; if (b : bool) then ret [r] else honor_any_from c t
  end.
Definition honor_any (c : nat) : M (list nat) :=
  rq <- get (fun s => c_requests (comps s c)) ;; honor_any_from c rq.

(** the three tallies 8777-8779, 8811-8813, 24382-24384 *)
Definition occ (cap : xq) (claimed : Q) : Q :=
  match cap with PInf => 0 | Fin k => if Qle_bool k 0 then 0 else claimed / k end.
Definition r_tally (x : resource) : resource :=
  mkR (r_cap x) (r_claimed x) (r_anon x) (r_preempt x) (r_hfirst x) (r_hprio x) (r_minq x)
      (r_trying x) (r_mcap x) (r_claimed x) (avail x) (occ (r_cap x) (r_claimed x)).

(** claim 8764-8779 *)
Definition claim (c r : nat) (q : Q) : M unit :=
  setr r (fun x => w_claimed (r_claimed x + q) x) ;;;
  p <- q_prio (QReq r) c ;;
  an <- get (fun s => r_anon (rsc s r)) ;;
  when (negb an)
    (setc c (fun x => w_claims (aset r (match alookup r (c_claims x) with
                                        | Some v => v + q | None => q end) (c_claims x)) x) ;;;
     l <- get (fun s => qs s (QClaim r)) ;;
     when (negb (inq c l)) (q_enter (QClaim r) c p)) ;;;
  setr r r_tally.

(** Component._tryrequest 8748-8795, given Resource._tryrequest [rt] *)
Definition c_try (rt : nat -> M unit) (c : nat) : M bool :=
  st <- stat c ;;
  if steqb st Interrupted then ret false
  else
    one <- get (fun s => c_oneof (comps s c)) ;;
    rh <- (if (one : bool) then honor_any c else honor_all c) ;;
    match rh with
    | [] => ret false
    | _ =>
      rq <- get (fun s => c_requests (comps s c)) ;;
      an <- get (fun s => filter (fun r => r_anon (rsc s r)) (keys rq)) ;;
      mfor rq (fun p => when (memb (fst p) rh) (claim c (fst p) (snd p)) ;;; leave_req c (fst p)) ;;;
      setc c (w_requests []) ;;;
      remove c ;;;
      setc c (w_status Scheduled) ;;;
      n <- get now ;;
      reschedule c (Fin n) (Fin 0) false (Some false) ;;;
      sw <- get (fun s => yl s && Nat.eqb c (cur s)) ;;
      (if (sw : bool) then setc c (w_retry an)      (* switched in _push 7468-7470: the rest later *)
       else mfor an rt) ;;;
      ret true
    end.

(** the while loop of Resource._tryrequest 24327-24336, 24343-24352.
    [mx]: the member at hand (None: the tail) *)
Fixpoint rloop (ct : nat -> M bool) (n : nat) (r : nat) (anon : bool) (first : option nat) (p1 : xq)
    (mx : option (nat * xq)) : M unit :=
  match mx with
  | None => ret tt
  | Some (c, p) =>
    match n with
    | O => raise OutOfFuel
    | S n' =>
      R <- get (fun s => rsc s r) ;;
      if r_hfirst R && negb (match first with Some f => Nat.eqb f c | None => false end) then ret tt
      else if r_hprio R && negb (xeqb p p1) then ret tt
      else if negb anon && xltb (xaddq (avail R) eps) (r_minq R) then ret tt
      else
        l <- get (fun s => qs s (QReq r)) ;;
        if inq c l then
          let nx := qnext c l in
          ct c ;;;
          l' <- get (fun s => qs s (QReq r)) ;;
          let nx' := if anon && negb (inq c l') then hd_error l' else nx in
          rloop ct n' r anon first p1 nx'
        else raise AttrErr                 (* mx.component is None *)
    end
  end.

(** Resource._tryrequest 24320-24352 *)
Fixpoint r_try (fuel : nat) (r : nat) : M unit :=
  match fuel with
  | O => raise OutOfFuel
  | S f =>
    an <- get (fun s => r_anon (rsc s r)) ;;
    l <- get (fun s => qs s (QReq r)) ;;
    let mx := hd_error l in
    let first := match mx with Some (c, _) => Some c | None => None end in
    let p1 := match mx with Some (_, p) => p | None => Fin 0 end in
    if (an : bool) then
      tr <- get (fun s => r_trying (rsc s r)) ;;
      if (tr : bool) then ret tt
      else
        setr r (w_trying true) ;;;
        rloop (c_try (r_try f)) f r true first p1 mx ;;;
        setr r (w_trying false)
    else rloop (c_try (r_try f)) f r false first p1 mx
  end.

(** Component._release 8797-8821 *)
Definition release1 (fuel : nat) (c r : nat) (q : option Q) (bumped : bool) : M unit :=
  cl <- get (fun s => alookup r (c_claims (comps s c))) ;;
  match cl with
  | None => raise ValueErr
  | Some v =>
    let q0 := match q with None => v | Some x => if Qltb v x then v else x end in
    setr r (fun x => w_claimed (r_claimed x - q0) x) ;;;
    setc c (fun x => w_claims (aset r (v - q0) (c_claims x)) x) ;;;
    when (Qltb (v - q0) eps)
      (q_leave (QClaim r) c ;;;
       l <- get (fun s => qs s (QClaim r)) ;;
       when (negb (nonnil l)) (setr r (w_claimed 0)) ;;;
       setc c (fun x => w_claims (adel r (c_claims x)) x)) ;;;
    setr r r_tally ;;;
    when (negb bumped) (r_try fuel r)
  end.

(** Component.release 8865-8881 *)
Definition release (fuel : nat) (c : nat) (args : list (nat * option Q)) : M unit :=
  match args with
  | [] => cl <- get (fun s => c_claims (comps s c)) ;;
          mfor (keys cl) (fun r => release1 fuel c r None false)
  | _ => mfor args (fun a =>
           an <- get (fun s => r_anon (rsc s (fst a))) ;;
           if (an : bool) then raise ValueErr else release1 fuel c (fst a) (snd a) false)
  end.

(** Resource.release 24373-24395 *)
Fixpoint release_claimers (fuel n : nat) (r : nat) (mx : option (nat * xq)) : M unit :=
  match mx with
  | None => ret tt
  | Some (c, _) =>
    match n with
    | O => raise OutOfFuel
    | S n' =>
      l <- get (fun s => qs s (QClaim r)) ;;
      if inq c l then
        let nx := qnext c l in
        release fuel c [(r, None)] ;;; release_claimers fuel n' r nx
      else raise AttrErr
    end
  end.
Definition res_release (fuel : nat) (r : nat) (q : option Q) : M unit :=
  an <- get (fun s => r_anon (rsc s r)) ;;
  if (an : bool) then
    setr r (fun x => w_claimed (r_claimed x - match q with None => r_claimed x | Some v => v end) x) ;;;
    b <- get (fun s => Qltb (r_claimed (rsc s r)) eps) ;;
    when b (setr r (w_claimed 0)) ;;;
    setr r r_tally ;;;
    r_try fuel r
  else
    match q with
    | Some _ => raise ValueErr
    | None => l <- get (fun s => qs s (QClaim r)) ;; release_claimers fuel fuel r (hd_error l)
    end.

(** Resource.set_capacity 24425-24429 *)
Definition set_cap (fuel : nat) (r : nat) (cap : xq) : M unit :=
  setr r (w_cap cap) ;;;
  setr r (fun x => mkR (r_cap x) (r_claimed x) (r_anon x) (r_preempt x) (r_hfirst x) (r_hprio x)
                       (r_minq x) (r_trying x) (r_cap x) (r_mclaimed x) (avail x)
                       (occ (r_cap x) (r_claimed x))) ;;;
  r_try fuel r.

(** cancel 8019-8037 *)
Definition cancel (fuel : nat) (c : nat) : M unit :=
  st <- stat c ;;
  if steqb st Data then ret tt
  else
    when (negb (steqb st Current)) (remove c ;;; check_fail c) ;;;
    cl <- get (fun s => c_claims (comps s c)) ;;
    mfor (keys cl) (fun r => release1 fuel c r None false) ;;;
    setc c (w_sched PInf) ;;;
    setc c (w_status Data).

(** fail_at / fail_delay 8570-8584, 8969-8983, 9174-9188, 8202-8216 *)
Definition fail_time (sp : spec) : M xq :=
  match sp with
  | SNone => ret PInf
  | SDur d => get (fun s => xadd (Fin (now s)) d)
  | STill t => get (fun s => xaddq t (off s))
  | SBoth => raise ValueErr
  end.

(** the claimers to be bumped, 8642-8648: from the last claimer to the front.
    [claimed_quantity(this_claimers)] looks up a Queue in the claims, hence is 0 *)
Fixpoint bump_candidates (q : Q) (p : xq) (av : xq) (l : list (nat * xq)) : list nat * xq :=
  match l with
  | [] => ([], av)
  | (c, pc) :: t =>
    if xleb (Fin q) av then ([], av)
    else if xleb pc p then ([], av)
    else let '(cs, av') := bump_candidates q p (xaddq av 0) t in (c :: cs, av')
  end.

(** one item of request 8594-8652 *)
Definition request1 (fuel : nat) (c : nat) (multi : bool) (a : nat * Q * xq) : M unit :=
  let '(r, q, p) := a in
  R <- get (fun s => rsc s r) ;;
  when (r_preempt R && multi) (raise ValueErr) ;;;
  when (Qltb q 0 && negb (r_anon R)) (raise ValueErr) ;;;
  setc c (fun x => w_requests (aset r (match alookup r (c_requests x) with
                                       | Some v => v + q | None => q end) (c_requests x)) x) ;;;
  q_enter (QReq r) c p ;;;
  when (r_preempt R)
    (av <- get (fun s => r_mavail (rsc s r)) ;;
     l <- get (fun s => qs s (QClaim r)) ;;
     let '(cs, av') := bump_candidates q p av (rev l) in
     when (xleb (Fin 0) av')
       (mfor cs (fun c' =>
          release1 fuel c' r None true ;;;
          sw <- get (fun s => yl s && Nat.eqb c' (cur s)) ;;
          (if (sw : bool) then raise Unmodelled      (* bumping oneself in yieldless mode *)
           else activate c' None (Fin 0) (Fin 0) false false false false None)))).

(** request 8563-8663 (get and put are request with positive / negated quantities) *)
Definition request (fuel : nat) (c : nat) (args : list (nat * Q * xq)) (oneof : bool)
    (fail : spec) (prio : xq) (urgent : bool) (cap : option bool) : M unit :=
  setc c (w_oneof oneof) ;;;
  st <- stat c ;;
  when (negb (steqb st Current))
    (check_notdata c ;;; check_notmain c ;;; remove c ;;; check_fail c) ;;;
  t <- fail_time fail ;;
  setc c (w_failed false) ;;;
  match args with
  | [] => n <- get now ;; reschedule c (Fin n) (Fin 0) false (Some false)
  | _ =>
    mfor args (request1 fuel c (1 <? length args)%nat) ;;;
    rq <- get (fun s => c_requests (comps s c)) ;;
    mfor rq (fun p =>
      setr (fst p) (fun x => if xltb (Fin (snd p)) (r_minq x) then w_minq (Fin (snd p)) x else x)) ;;;
    n <- get now ;;
    setc c (w_rem (xsubq t n)) ;;;
    c_try (r_try fuel) c ;;;
    rq' <- get (fun s => c_requests (comps s c)) ;;
    when (nonnil rq')
      (setc c (w_status Requesting) ;;; reschedule c t prio urgent cap)
  end.

(** ** States *)

(** Component._trywait 9238-9285 *)
Definition wait_ok (s : env) (x : comp) : bool :=
  match c_cond x with
  | Some f => f (sval s)
  | None =>
    if c_wall x then forallb (fun w => snd w (sval s (fst w))) (c_waits x)
    else existsb (fun w => snd w (sval s (fst w))) (c_waits x)
  end.
Definition leave_wait (c st : nat) : M unit :=
  l <- get (fun s => qs s (QWait st)) ;; when (inq c l) (q_leave (QWait st) c).
Definition c_trywait (c : nat) : M bool :=
  st <- stat c ;;
  if steqb st Interrupted then ret false
  else
    b <- get (fun s => wait_ok s (comps s c)) ;;
    if (b : bool) then
      ws <- get (fun s => c_waits (comps s c)) ;;
      mfor (map fst ws) (leave_wait c) ;;;
      setc c (w_waits []) ;;;
      remove c ;;;
      setc c (w_status Scheduled) ;;;
      n <- get now ;;
      reschedule c (Fin n) (Fin 0) false (Some false) ;;;
      ret true
    else ret false.

(** State._trywait 23797-23805.  c._trywait only removes c itself from the waiters and the successor
    is read before, so the loop visits the members present at the start, in order.
    [mx = None]: inf *)
Fixpoint s_trywait (l : list nat) (mx : option Z) : M unit :=
  match l with
  | [] => ret tt
  | c :: t =>
    b <- c_trywait c ;;
    if (b : bool) then
      match mx with
      | None => s_trywait t None
      | Some m => if (m - 1 =? 0)%Z then ret tt else s_trywait t (Some (m - 1)%Z)
      end
    else s_trywait t mx
  end.
Definition st_trywait (st : nat) (mx : option Z) : M unit :=
  l <- get (fun s => map fst (qs s (QWait st))) ;; s_trywait l mx.

Definition set_sval (st : nat) (v : Z) : M unit := put (fun s => s_sval (upd (sval s) st v) s).

(** State.set 23731-23734, State.reset 23754-23757 *)
Definition st_set (st : nat) (v : Z) : M unit :=
  v0 <- get (fun s => sval s st) ;;
  when (negb (v0 =? v)%Z) (set_sval st v ;;; st_trywait st None).

(** State.trigger 23786-23795 *)
Definition st_trigger (st : nat) (v : Z) (after : option Z) (mx : option Z) : M unit :=
  v0 <- get (fun s => sval s st) ;;
  let va := match after with Some x => x | None => v0 end in
  set_sval st v ;;; st_trywait st mx ;;; set_sval st va ;;; st_trywait st None.

(** one item of wait 9210-9223 *)
Definition wait1 (c : nat) (a : nat * (Z -> bool) * xq) : M unit :=
  let '(st, f, p) := a in
  ws <- get (fun s => c_waits (comps s c)) ;;
  when (negb (memb st (map fst ws))) (q_enter (QWait st) c p) ;;;
  setc c (fun x => w_waits (c_waits x ++ [(st, f)]) x).

(** wait 9163-9236 *)
Definition wait (c : nat) (args : list (nat * (Z -> bool) * xq)) (all : bool)
    (fail : spec) (prio : xq) (urgent : bool) (cap : option bool) : M unit :=
  setc c (w_cond None) ;;;
  st <- stat c ;;
  when (negb (steqb st Current))
    (check_notdata c ;;; check_notmain c ;;; remove c ;;; check_fail c) ;;;
  setc c (w_wall all) ;;;
  setc c (w_failed false) ;;;
  t <- fail_time fail ;;
  mfor args (wait1 c) ;;;
  ws <- get (fun s => c_waits (comps s c)) ;;
  when (negb (nonnil ws)) (raise TypeErr) ;;;
  n <- get now ;;
  setc c (w_rem (xsubq t n)) ;;;
  c_trywait c ;;;
  ws' <- get (fun s => c_waits (comps s c)) ;;
  when (nonnil ws')
    (setc c (w_status Waiting) ;;; reschedule c t prio urgent cap).

(** wait_for 8961-9007 (note: the queue position follows [prio], 8991-8994) *)
Definition wait_for (c : nat) (cond : (nat -> Z) -> bool) (states : list nat)
    (fail : spec) (prio : xq) (urgent : bool) (cap : option bool) : M unit :=
  st <- stat c ;;
  when (negb (steqb st Current))
    (check_notdata c ;;; check_notmain c ;;; remove c ;;; check_fail c) ;;;
  setc c (w_failed false) ;;;
  t <- fail_time fail ;;
  setc c (w_cond (Some cond)) ;;;
  mfor states (fun st' =>
    setc c (fun x => w_waits (c_waits x ++ [(st', fun _ => true)]) x) ;;;
    q_enter (QWait st') c prio) ;;;
  ws <- get (fun s => c_waits (comps s c)) ;;
  when (negb (nonnil ws)) (raise TypeErr) ;;;
  n <- get now ;;
  setc c (w_rem (xsubq t n)) ;;;
  c_trywait c ;;;
  ws' <- get (fun s => c_waits (comps s c)) ;;
  when (nonnil ws')
    (setc c (w_status Waiting) ;;; reschedule c t prio urgent cap).

(** ** Stores *)

Definition xlen {A} (l : list A) : Q := inject_Z (Z.of_nat (length l)).
Definition set_kmav (k : nat) (v : xq) : M unit := put (fun s => s_kmav (upd (kmav s) k v) s).

(** honoring requester [d] with item [c], 4251-4260 and 5781-5790 *)
Definition give (d c : nat) : M unit :=
  setc d (w_from []) ;;; setc d (w_fitem (Some c)) ;;;
  remove d ;;; setc d (w_status Scheduled) ;;;
  n <- get now ;; reschedule d (Fin n) (Fin 0) false (Some false).

Definition leave_from (d : nat) : M unit :=
  fs <- get (fun s => c_from (comps s d)) ;; mfor fs (fun k => q_leave (QFrom k) d).
Definition leave_to (d : nat) : M unit :=
  ts <- get (fun s => c_to (comps s d)) ;; mfor ts (fun k => q_leave (QTo k) d).

(** entering a store (Qmember.insert_in_front_of 4221-4261, with the position of Component.enter)
    and leaving a store (Component.leave 9766-9799); they call each other *)
Fixpoint item_enter (fuel : nat) (k c : nat) (w : qpos) : M unit :=
  match fuel with
  | O => raise OutOfFuel
  | S f =>
    l <- get (fun s => qs s (QStore k)) ;;
    if inq c l then raise ValueErr
    else if negb (pos_ok w l) then raise ValueErr
    else
      av <- get (fun s => xsubq (kcap s k) (xlen (qs s (QStore k)) + 1)) ;;
      if xltb av (Fin 0) then raise QueueFull
      else
        set_kmav k av ;;;
        put (m_q (QStore k) (ins_at c w)) ;;;
        d <- get (fun s => find (fun d => c_filter (comps s d) c) (map fst (qs s (QFrom k)))) ;;
        match d with
        | None => ret tt
        | Some d => item_leave f k c ;;; leave_from d ;;; give d c
        end
  end
with item_leave (fuel : nat) (k c : nat) : M unit :=
  match fuel with
  | O => raise OutOfFuel
  | S f =>
    l <- get (fun s => qs s (QStore k)) ;;
    if negb (inq c l) then raise ValueErr
    else
      put (m_q (QStore k) (adel c)) ;;;
      av <- get (fun s => xsubq (kcap s k) (xlen (qs s (QStore k)))) ;;
      set_kmav k av ;;;
      if xltb (Fin 0) av then
        w <- get (fun s => hd_error (map fst (qs s (QTo k)))) ;;
        match w with
        | None => ret tt
        | Some w =>
          it <- get (fun s => c_titem (comps s w)) ;;
          match it with
          | None => raise AttrErr
          | Some i =>
            pr <- get (fun s => c_tprio (comps s w)) ;;
            item_enter f k i (PSorted pr) ;;;
            leave_to w ;;;
            setc w (w_to []) ;;;
            remove w ;;; setc w (w_status Scheduled) ;;;
            n <- get now ;; reschedule w (Fin n) (Fin 0) false (Some false) ;;;
            setc w (w_titem None)
          end
        end
      else ret tt
  end.

(** the search of from_store 8225-8241: returns (found item, store variable after the loop) *)
Fixpoint best_key (f : nat -> bool) (key : nat -> Q) (best : option nat) (l : list nat) : option nat :=
  match l with
  | [] => best
  | c :: t =>
    if f c then
      best_key f key (match best with
                      | None => Some c
                      | Some b => if Qltb (key c) (key b) then Some c else Some b
                      end) t
    else best_key f key best t
  end.
Fixpoint find_item (s : env) (f : nat -> bool) (key : option (nat -> Q)) (best : option nat)
    (stores : list nat) (lastk : nat) : option nat * nat :=
  match stores with
  | [] => (best, lastk)
  | k :: t =>
    let items := map fst (qs s (QStore k)) in
    match key with
    | None => match find f items with
              | Some c => (Some c, k)
              | None => find_item s f key best t k
              end
    | Some kf => find_item s f key (best_key f kf best items) t k
    end
  end.

(** from_store 8187-8262 *)
Definition from_store (fuel : nat) (c : nat) (stores : list nat) (f : nat -> bool)
    (key : option (nat -> Q)) (rprio : xq) (fail : spec) (fprio : xq) (urgent : bool)
    (cap : option bool) : M unit :=
  when (negb (nonnil stores) || negb (Nat.eqb (length (nodup Nat.eq_dec stores)) (length stores)))
    (raise ValueErr) ;;;
  st <- stat c ;;
  when (negb (steqb st Current))
    (check_notdata c ;;; check_notmain c ;;; remove c ;;; check_fail c) ;;;
  t <- fail_time fail ;;
  setc c (w_failed false) ;;;
  fk <- get (fun s => find_item s f key None stores 0%nat) ;;
  match fk with
  | (Some i, k) =>
    item_leave fuel k i ;;;
    setc c (w_fitem (Some i)) ;;;
    remove c ;;;
    setc c (w_status Scheduled) ;;;
    n <- get now ;;
    reschedule c (Fin n) (Fin 0) false (Some false)
  | (None, _) =>
    setc c (w_from stores) ;;;
    mfor stores (fun k => q_enter (QFrom k) c rprio) ;;;
    setc c (w_status Requesting) ;;;
    setc c (w_fitem None) ;;;
    setc c (w_filter f) ;;;
    reschedule c t fprio urgent cap
  end.

(** to_store 8357-8414 *)
Fixpoint to_try (fuel : nat) (c i : nat) (p : xq) (stores : list nat) : M bool :=
  match stores with
  | [] => ret false
  | k :: t =>
    av <- get (fun s => kmav s k) ;;
    if xltb (Fin 0) av then
      item_enter fuel k i (PSorted p) ;;;
      setc c (w_titem None) ;;; setc c (w_to []) ;;;
      remove c ;;; setc c (w_status Scheduled) ;;;
      n <- get now ;; reschedule c (Fin n) (Fin 0) false (Some false) ;;;
      ret true
    else to_try fuel c i p t
  end.
Definition to_store (fuel : nat) (c : nat) (stores : list nat) (i : nat) (rprio p : xq)
    (fail : spec) (fprio : xq) (urgent : bool) (cap : option bool) : M unit :=
  when (negb (nonnil stores) || negb (Nat.eqb (length (nodup Nat.eq_dec stores)) (length stores)))
    (raise ValueErr) ;;;
  st <- stat c ;;
  when (negb (steqb st Current))
    (check_notdata c ;;; check_notmain c ;;; remove c ;;; check_fail c) ;;;
  t <- fail_time fail ;;
  setc c (w_failed false) ;;;
  b <- to_try fuel c i p stores ;;
  if (b : bool) then ret tt
  else
    mfor stores (fun k => q_enter (QTo k) c rprio) ;;;
    setc c (w_status Requesting) ;;;
    setc c (w_titem (Some i)) ;;;
    setc c (w_tprio p) ;;;
    setc c (w_to stores) ;;;
    reschedule c t fprio urgent cap.

(** Store.rescan 5774-5790.  There is no break: the filter of a requester is applied to all
    items (of the snapshot), and after the first hit _from_stores is empty.
    [self.remove(item)] is item.leave(self). *)
Fixpoint rescan_items (fuel : nat) (k d : nat) (items : list nat) : M unit :=
  match items with
  | [] => ret tt
  | i :: t =>
    b <- get (fun s => c_filter (comps s d) i) ;;
    (if (b : bool) then
       leave_from d ;;; item_leave fuel k i ;;; give d i
     else ret tt) ;;;
    rescan_items fuel k d t
  end.
Definition rescan (fuel : nat) (k : nat) : M unit :=
  ds <- get (fun s => map fst (qs s (QFrom k))) ;;
  mfor ds (fun d =>
    (* the iterator skips members that have left the queue meanwhile, 5382-5384 *)
    l <- get (fun s => qs s (QFrom k)) ;;
    when (inq d l)
      (items <- get (fun s => map fst (qs s (QStore k))) ;; rescan_items fuel k d items)).

(** Component.filter 8429-8431 *)
Definition set_filter (fuel : nat) (c : nat) (f : nat -> bool) : M unit :=
  setc c (w_filter f) ;;;
  fs <- get (fun s => c_from (comps s c)) ;;
  mfor fs (rescan fuel).

(** Store._rescan_to 5792-5809 *)
Fixpoint rescan_to_loop (fuel : nat) (k : nat) (ds : list nat) : M unit :=
  match ds with
  | [] => ret tt
  | d :: t =>
    l <- get (fun s => qs s (QTo k)) ;;
    if inq d l then
      av <- get (fun s => kmav s k) ;;
      if xltb (Fin 0) av then
        leave_to d ;;;
        it <- get (fun s => c_titem (comps s d)) ;;
        match it with
        | None => raise AttrErr
        | Some i =>
          pr <- get (fun s => c_tprio (comps s d)) ;;
          item_enter fuel k i (PSorted pr) ;;;
          setc d (w_to []) ;;;
          remove d ;;; setc d (w_status Scheduled) ;;;
          n <- get now ;; reschedule d (Fin n) (Fin 0) false (Some false) ;;;
          setc d (w_titem None) ;;;
          rescan_to_loop fuel k t
        end
      else ret tt
    else rescan_to_loop fuel k t
  end.

(** Store.set_capacity 5749-5752 with Queue.set_capacity 4791-4792 *)
Definition st_set_cap (fuel : nat) (k : nat) (cap : xq) : M unit :=
  old <- get (fun s => kcap s k) ;;
  put (fun s => s_kcap (upd (kcap s) k cap) s) ;;;
  av <- get (fun s => xsubq cap (xlen (qs s (QStore k)))) ;;
  set_kmav k av ;;;
  when (xleb old cap)
    (ds <- get (fun s => map fst (qs s (QTo k))) ;; rescan_to_loop fuel k ds).

(** ** Scheduler *)

(** Environment._terminate 11274-11284 *)
Definition terminate (fuel : nat) (c : nat) : M unit :=
  cl <- get (fun s => c_claims (comps s c)) ;;
  mfor (keys cl) (fun r => release1 fuel c r None false) ;;;
  setc c (w_fitem None) ;;; setc c (w_titem None) ;;;
  setc c (w_status Data) ;;;
  setc c (w_sched PInf).

(** resuming the process of c: in yieldless mode first the rest of an interrupted _tryrequest *)
Definition continue (fuel : nat) (c : nat) : M unit :=
  rs <- get (fun s => c_retry (comps s c)) ;;
  setc c (w_retry []) ;;;
  mfor rs (r_try fuel).

(** Environment.step 11156-11226, up to and including the resumption of the process.
    What the process does next are further operations. *)
Definition step_event (fuel : nat) : M unit :=
  sb <- get stby ;;
  when (nonnil sb) (put (s_pend sb) ;;; put (s_stby [])) ;;;
  l <- get evl ;;
  x <- match ev_pop l with
       | Some (e, l') => put (s_evl l') ;;; ret (Some e)
       | None => ret None
       end ;;
  let c := match x with Some e => e_c e | None => main end in
  match x with
  | Some e => setc c (w_onev false) ;;; put (s_now (e_t e))
  | None => setc c (w_onev false) ;;; eo <- get eoe ;; when (negb eo) (put (s_ended true))
  end ;;;
  put (s_cur c) ;;;
  setc c (w_status Current) ;;;
  setc c (w_sched PInf) ;;;
  if Nat.eqb c main then put (s_running false)
  else check_fail c ;;; continue fuel c.

Definition step (fuel : nat) : M unit :=
  cc <- get cur ;;
  sk <- get (fun s => c_skip (comps s cc)) ;;
  pd <- get pend ;;
  match (if (sk : bool) then [] else pd) with
  | c :: t =>
    put (s_pend t) ;;;
    st <- stat c ;;
    if steqb st Standby then
      setc c (w_status Current) ;;; setc c (w_sched PInf) ;;; put (s_cur c) ;;;
      if Nat.eqb c main then raise TypeErr       (* main has no process: 11181 *)
      else continue fuel c
    else step_event fuel
  | [] => step_event fuel
  end.

(** Environment.run 13372-13402, up to the first step *)
Definition run (sp : spec) (prio : xq) (urgent : bool) (cap : option bool) : M unit :=
  put (s_eoe false) ;;;
  t <- match sp with
       | SNone => put (s_eoe true) ;;; ret PInf
       | SDur d => get (fun s => xadd (Fin (now s)) d)
       | STill t => get (fun s => xaddq t (off s))
       | SBoth => raise ValueErr
       end ;;
  setc main (w_status Scheduled) ;;;
  reschedule main t prio urgent cap ;;;
  put (s_running true).

(** Environment.reset_now 13160-13162 *)
Definition reset_now (x : Q) : M unit := put (fun s => s_off (now s - x) s).
(** Environment.now 13123: the time presented to the user *)
Definition user_now (s : env) : Q := now s - off s.
(** Component.scheduled_time *)
Definition user_sched (s : env) (c : nat) : xq := xsubq (c_sched (comps s c)) (off s).

(** ** Operations: what user code can do *)
Inductive op :=
| OCreate (c : nat) (at_ : option xq) (delay prio : xq) (urgent skip : bool) (cap : option bool)
| OActivate (c : nat) (at_ : option xq) (delay prio : xq) (urgent proc kr kw : bool) (cap : option bool)
| OHold (c : nat) (sp : spec) (prio : xq) (urgent : bool) (inter : Z) (cap : option bool)
| OPassivate (c : nat)
| OInterrupt (c : nat)
| OResume (c : nat) (all : bool) (prio : xq) (urgent : bool)
| OCancel (c : nat)
| OStandby (c : nat)
| ORemaining (c : nat) (v : xq) (prio : xq) (urgent : bool)
| ORequest (c : nat) (args : list (nat * Q * xq)) (oneof : bool) (fail : spec) (prio : xq) (urgent : bool) (cap : option bool)
| ORelease (c : nat) (args : list (nat * option Q))
| OResRelease (r : nat) (q : option Q)
| OSetCap (r : nat) (cap : xq)
| OWait (c : nat) (args : list (nat * (Z -> bool) * xq)) (all : bool) (fail : spec) (prio : xq) (urgent : bool) (cap : option bool)
| OWaitFor (c : nat) (cond : (nat -> Z) -> bool) (states : list nat) (fail : spec) (prio : xq) (urgent : bool) (cap : option bool)
| OSet (st : nat) (v : Z)
| OTrigger (st : nat) (v : Z) (after mx : option Z)
| OFromStore (c : nat) (stores : list nat) (f : nat -> bool) (key : option (nat -> Q)) (rprio : xq) (fail : spec) (fprio : xq) (urgent : bool) (cap : option bool)
| OToStore (c : nat) (stores : list nat) (i : nat) (rprio p : xq) (fail : spec) (fprio : xq) (urgent : bool) (cap : option bool)
| OEnterStore (i k : nat) (w : qpos)       (* item.enter / enter_sorted / enter_at_head / ... (store) *)
| OLeaveStore (i k : nat)                  (* item.leave(store) *)
| OStoreCap (k : nat) (cap : xq)
| ORescan (k : nat)
| OFilter (c : nat) (f : nat -> bool)
| OTouch (c : nat) (f : nat -> bool)       (* attributes of items change: the filter of c has another outcome *)
| OSkip (c : nat) (b : bool)               (* skip_standby *)
| OResetNow (x : Q)
| OStep                                    (* one Environment.step *)
| OEnd                                     (* the process of the current component ends *)
| ORun (sp : spec) (prio : xq) (urgent : bool) (cap : option bool).

Definition exec (fuel : nat) (o : op) : M unit :=
  match o with
  | OCreate c a d p u sk cap => create c a d p u sk cap
  | OActivate c a d p u pr kr kw cap => activate c a d p u pr kr kw cap
  | OHold c sp p u i cap => hold c sp p u i cap
  | OPassivate c => passivate c
  | OInterrupt c => interrupt c
  | OResume c a p u => resume c a p u
  | OCancel c => cancel fuel c
  | OStandby c => standby c
  | ORemaining c v p u => set_remaining c v p u
  | ORequest c a o f p u cap => request fuel c a o f p u cap
  | ORelease c a => release fuel c a
  | OResRelease r q => res_release fuel r q
  | OSetCap r cap => set_cap fuel r cap
  | OWait c a al f p u cap => wait c a al f p u cap
  | OWaitFor c cond sts f p u cap => wait_for c cond sts f p u cap
  | OSet st v => st_set st v
  | OTrigger st v a m => st_trigger st v a m
  | OFromStore c ks f key rp fl fp u cap => from_store fuel c ks f key rp fl fp u cap
  | OToStore c ks i rp p fl fp u cap => to_store fuel c ks i rp p fl fp u cap
  | OEnterStore i k w => item_enter fuel k i w
  | OLeaveStore i k => item_leave fuel k i
  | OStoreCap k cap => st_set_cap fuel k cap
  | ORescan k => rescan fuel k
  | OFilter c f => set_filter fuel c f
  | OTouch c f => setc c (w_filter f)
  | OSkip c b => setc c (w_skip b)
  | OResetNow x => reset_now x
  | OStep => step fuel
  | OEnd => c <- get cur ;; terminate fuel c
  | ORun sp p u cap => run sp p u cap
  end.

(** ** Initial state: main is current (10560-10563), everything else is given by the
    resources, states and stores that have been defined *)
Definition res0 (cap : xq) (claimed : Q) (anon preempt hf hp : bool) : resource :=
  (* 24027-24054: note that the initial occupancy is 0 *)
  mkR cap claimed anon preempt hf hp PInf false cap claimed (xsubq cap claimed) 0.
Definition init (t0 : Q) (R : nat -> resource) (sv : nat -> Z) (kc : nat -> xq) (hp : nat -> bool)
    (yieldless dcap : bool) : env :=
  mkE t0 0 0%Z [] [] [] main
      (upd (fun c => w_hasproc (hp c) comp0) main (w_status Current (w_hasproc (hp main) comp0)))
      R (fun _ => []) sv kc kc false false yieldless dcap false.

(** a component id that is not in use: a data component without claims, requests, waits *)
Definition pristineb (x : comp) : bool :=
  steqb (c_status x) Data && negb (c_onev x) && (c_ilevel x =? 0)%Z && negb (nonnil (c_requests x)) &&
  negb (nonnil (c_claims x)) && negb (nonnil (c_waits x)) && negb (nonnil (c_from x)) &&
  negb (nonnil (c_to x)) && negb (nonnil (c_retry x)).
Definition pristine (s : env) (c : nat) : Prop := pristineb (comps s c) = true.
