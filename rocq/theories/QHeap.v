(** Queues as they are represented in the code: doubly linked lists of Qmember objects in a heap.
    Modelled: Qmember.insert_in_front_of 4221-4245, Queue 4305-4332 and 4890-5239, 5318-5336, 5360-5719,
    Component.enter … priority 9577-9879 and _member, _checkinqueue, _checknotinqueue 10040-10055.
    Not modelled: names, tracing, animation, the parts for stores (these are in Kernel), internal queues
    (whose iterators are not notified of changes) and the monitors other than the values tallied. *)
From Coq Require Import QArith Lqa List Bool Arith ZArith Lia.
From Verif Require Import Base.
Import ListNotations.
Open Scope Q_scope.

(** a Qmember object: successor, predecessor, priority, component (None: deleted, 9771), queue, enter_time *)
Record qm := mkQm { m_succ : option nat; m_pred : option nat; m_prio : xq; m_comp : option nat; m_q : nat; m_time : Q }.
(** a Queue object: _head, _tail, _length, the present tallies of capacity and available_quantity, _iter_touched, _iter_sequence,
    number_of_arrivals, number_of_departures, the tallies of length (with their times, last first) and of length_of_stay (last first) *)
Record qu := mkQu { u_head : nat; u_tail : nat; u_len : Z; u_cap : xq; u_av : xq; u_touch : list (nat * bool); u_seq : nat;
  u_arr : Z; u_dep : Z; u_llog : list (Q * Z); u_slog : list Q }.
(** a generator made by Queue.__iter__: not started, suspended after a yield, or finished *)
Inductive iter := ItNew (q : nat) | ItRun (q seq : nat) (l : list nat) (i : nat) | ItDone.
(** all Qmembers, all queues, _qmembers of each component, the time, all generators *)
Record heap := mkH { mm : nat -> qm; nm : nat; qq : nat -> qu; nq : nat; mb : nat -> list (nat * nat); ck : Q; its : nat -> iter; ni : nat }.

Inductive qexn := EValue | EIndex | EFull | EAttr | EFuel.
Inductive res (A : Type) := Rok (a : A) | Rer (e : qexn).
Arguments Rok {A} a. Arguments Rer {A} e.
Definition rbind {A B} (r : res A) (f : A -> res B) : res B := match r with Rok a => f a | Rer e => Rer e end.
Definition H (A : Type) := heap -> heap * res A.
Definition hret {A} (a : A) : H A := fun h => (h, Rok a).
Definition hraise {A} (e : qexn) : H A := fun h => (h, Rer e).
Definition hbind {A B} (m : H A) (f : A -> H B) : H B := fun h => match m h with (h1, Rok a) => f a h1 | (h1, Rer e) => (h1, Rer e) end.
(** reading the heap *)
Definition rd {A} (g : heap -> res A) : H A := fun h => (h, g h).
Definition hput (f : heap -> heap) : H unit := fun h => (f h, Rok tt).
Declare Scope h_scope.
Delimit Scope h_scope with h.
Notation "x <- m ; k" := (hbind m (fun x => k)) (at level 60, m at next level, right associativity) : h_scope.
Notation "m ;; k" := (hbind m (fun _ => k)) (at level 60, right associativity) : h_scope.
Open Scope h_scope.
Fixpoint hfor {A} (l : list A) (f : A -> H unit) : H unit := match l with [] => hret tt | a :: t => f a ;; hfor t f end.

Definition set_m (m : nat) (f : qm -> qm) (h : heap) : heap := mkH (upd (mm h) m (f (mm h m))) (nm h) (qq h) (nq h) (mb h) (ck h) (its h) (ni h).
Definition set_q (q : nat) (f : qu -> qu) (h : heap) : heap := mkH (mm h) (nm h) (upd (qq h) q (f (qq h q))) (nq h) (mb h) (ck h) (its h) (ni h).
Definition set_mb (c : nat) (l : list (nat * nat)) (h : heap) : heap := mkH (mm h) (nm h) (qq h) (nq h) (upd (mb h) c l) (ck h) (its h) (ni h).
Definition set_it (i : nat) (x : iter) (h : heap) : heap := mkH (mm h) (nm h) (qq h) (nq h) (mb h) (ck h) (upd (its h) i x) (ni h).
Definition w_succ (x : option nat) (m : qm) : qm := mkQm x (m_pred m) (m_prio m) (m_comp m) (m_q m) (m_time m).
Definition w_pred (x : option nat) (m : qm) : qm := mkQm (m_succ m) x (m_prio m) (m_comp m) (m_q m) (m_time m).
Definition w_prio (x : xq) (m : qm) : qm := mkQm (m_succ m) (m_pred m) x (m_comp m) (m_q m) (m_time m).
Definition w_gone (m : qm) : qm := mkQm (m_succ m) (m_pred m) (m_prio m) None (m_q m) (m_time m).
Definition w_touch (l : list (nat * bool)) (u : qu) : qu := mkQu (u_head u) (u_tail u) (u_len u) (u_cap u) (u_av u) l (u_seq u) (u_arr u) (u_dep u) (u_llog u) (u_slog u).
Definition w_av (a : xq) (u : qu) : qu := mkQu (u_head u) (u_tail u) (u_len u) (u_cap u) a (u_touch u) (u_seq u) (u_arr u) (u_dep u) (u_llog u) (u_slog u).
Definition w_cap (a : xq) (u : qu) : qu := mkQu (u_head u) (u_tail u) (u_len u) a (u_av u) (u_touch u) (u_seq u) (u_arr u) (u_dep u) (u_llog u) (u_slog u).
(** for iter in q._iter_touched: q._iter_touched[iter] = True *)
Definition touch_all (l : list (nat * bool)) : list (nat * bool) := map (fun x => (fst x, true)) l.

(** mx.successor, mx.predecessor used as an object *)
Definition sc (m : nat) (h : heap) : res nat := match m_succ (mm h m) with Some x => Rok x | None => Rer EAttr end.
Definition pd (m : nat) (h : heap) : res nat := match m_pred (mm h m) with Some x => Rok x | None => Rer EAttr end.

(** Qmember().insert_in_front_of(m2, c, q, priority) 4221-4245; the new Qmember is number [nm h] *)
Definition insert_in_front_of (m2 c q : nat) (p : xq) : H unit := fun h =>
  let u := qq h q in
  let av := xsubq (xsubq (u_cap u) (inject_Z (u_len u))) 1 in
  if xltb av (Fin 0) then (h, Rer EFull)
  else
    let h0 := set_q q (w_av av) h in
    match m_pred (mm h m2) with
    | None => (h0, Rer EAttr)
    | Some m1 =>
      let s := nm h in
      let h1 := set_m m2 (w_pred (Some s)) (set_m m1 (w_succ (Some s)) h0) in
      let h2 := mkH (upd (mm h1) s (mkQm (Some m2) (Some m1) p (Some c) q (ck h))) (S s) (qq h1) (nq h1) (mb h1) (ck h1) (its h1) (ni h1) in
      let h3 := set_q q (fun v => mkQu (u_head v) (u_tail v) (u_len v + 1) (u_cap v) (u_av v) (touch_all (u_touch v)) (u_seq v) (u_arr v + 1) (u_dep v) ((ck h, u_len v + 1)%Z :: u_llog v) (u_slog v)) h2 in
      (set_mb c (aset q s (mb h c)) h3, Rok tt)
    end.

(** _member, _checknotinqueue, _checkinqueue 10040-10055 *)
Definition member (c q : nat) (h : heap) : option nat := alookup q (mb h c).
Definition check_not_in (c q : nat) : H unit := fun h => match member c q h with None => (h, Rok tt) | Some _ => (h, Rer EValue) end.
Definition check_in (c q : nat) : H nat := fun h => match member c q h with None => (h, Rer EValue) | Some m => (h, Rok m) end.

(** 9656-9658: from the tail to the front, over the members with a higher priority *)
Fixpoint back (fuel hd : nat) (p : xq) (m2 : nat) (h : heap) : res nat :=
  match fuel with
  | O => Rer EFuel
  | S f => rbind (pd m2 h) (fun m1 => if Nat.eqb m1 hd || negb (xltb p (m_prio (mm h m1))) then Rok m2 else back f hd p m1 h)
  end.
(** enter, enter_sorted 9633-9660, 9729-9745; Queue.append 4914 (ignores its priority argument), add_sorted 5038.
    Loops get the number of Qmembers as fuel; that this is enough is proved in QHeapP *)
Definition enter (c q : nat) (po : option xq) : H unit :=
  check_not_in c q ;;
  match po with
  | None => m1 <- rd (fun h => pd (u_tail (qq h q)) h) ; p <- rd (fun h => Rok (m_prio (mm h m1))) ; t <- rd (fun h => Rok (u_tail (qq h q))) ; insert_in_front_of t c q p
  | Some p =>
    m0 <- rd (fun h => if (1 <=? u_len (qq h q))%Z then rbind (sc (u_head (qq h q)) h) (fun m => Rok (if xltb p (m_prio (mm h m)) then Some m else None)) else Rok None) ;
    m2 <- match m0 with Some m => hret m | None => rd (fun h => back (S (nm h)) (u_head (qq h q)) p (u_tail (qq h q)) h) end ;
    insert_in_front_of m2 c q p
  end.
(** enter_at_head 9662-9681 *)
Definition enter_at_head (c q : nat) : H unit :=
  check_not_in c q ;;
  m <- rd (fun h => sc (u_head (qq h q)) h) ; p <- rd (fun h => Rok (m_prio (mm h m))) ; insert_in_front_of m c q p.
(** enter_in_front_of 9683-9704 *)
Definition enter_in_front_of (c q pos : nat) : H unit :=
  check_not_in c q ;; m2 <- check_in pos q ; p <- rd (fun h => Rok (m_prio (mm h m2))) ; insert_in_front_of m2 c q p.
(** enter_behind 9706-9727 *)
Definition enter_behind (c q pos : nat) : H unit :=
  check_not_in c q ;; m1 <- check_in pos q ; p <- rd (fun h => Rok (m_prio (mm h m1))) ; m2 <- rd (sc m1) ; insert_in_front_of m2 c q p.
(** the loop of Queue.insert 4985-4991 *)
Fixpoint upto (fuel tl : nat) (n : Z) (count : Z) (mx : nat) (h : heap) : res nat :=
  match fuel with
  | O => Rer EFuel
  | S f => if Nat.eqb mx tl then Rok mx else if Z.eqb count n then Rok mx else rbind (sc mx h) (fun m => upto f tl n (count + 1) m h)
  end.
(** Queue.insert 4961-4994 *)
Definition insert (n : Z) (c q : nat) : H unit :=
  len <- rd (fun h => Rok (u_len (qq h q))) ;
  if (n <? 0)%Z then hraise EIndex else if (len <? n)%Z then hraise EIndex
  else
    check_not_in c q ;;
    mx <- rd (fun h => rbind (sc (u_head (qq h q)) h) (fun m => upto (S (nm h)) (u_tail (qq h q)) n 0 m h)) ;
    p <- rd (fun h => Rok (m_prio (mm h mx))) ; insert_in_front_of mx c q p.
(** leave(q) 9766-9782; Queue.remove(c) 5059 *)
Definition leave (c q : nat) : H unit :=
  mx <- check_in c q ;
  m1 <- rd (pd mx) ; m2 <- rd (sc mx) ;
  hput (set_m m1 (w_succ (Some m2))) ;; hput (set_m m2 (w_pred (Some m1))) ;; hput (set_m mx w_gone) ;;
  hput (fun h => set_q q (fun v => mkQu (u_head v) (u_tail v) (u_len v - 1) (u_cap v) (xsubq (u_cap v) (inject_Z (u_len v - 1))) (u_touch v) (u_seq v) (u_arr v) (u_dep v + 1)
                             ((ck h, u_len v - 1)%Z :: u_llog v) ((ck h - m_time (mm h mx)) :: u_slog v)) h) ;;
  hput (fun h => set_mb c (adel q (mb h c)) h).
(** leave() 9760-9764 *)
Definition leave_all (c : nat) : H unit := l <- rd (fun h => Rok (keys (mb h c))) ; hfor l (leave c).
(** 9832-9834 *)
Fixpoint forth (fuel tl : nat) (p : xq) (m2 : nat) (h : heap) : res nat :=
  match fuel with
  | O => Rer EFuel
  | S f => if Nat.eqb m2 tl || negb (xleb (m_prio (mm h m2)) p) then Rok m2 else rbind (sc m2 h) (fun m => forth f tl p m h)
  end.
(** priority(q, priority) 9825-9843 *)
Definition set_prio (c q : nat) (p : xq) : H unit :=
  mx <- check_in c q ;
  old <- rd (fun h => Rok (m_prio (mm h mx))) ;
  if xeqb p old then hret tt
  else
    m1 <- rd (pd mx) ; m2 <- rd (sc mx) ;
    hput (set_m m1 (w_succ (Some m2))) ;; hput (set_m m2 (w_pred (Some m1))) ;;
    n2 <- rd (fun h => rbind (sc (u_head (qq h q)) h) (fun m => forth (S (nm h)) (u_tail (qq h q)) p m h)) ;
    n1 <- rd (pd n2) ;
    hput (set_m n1 (w_succ (Some mx))) ;; hput (set_m n2 (w_pred (Some mx))) ;; hput (set_m mx (w_pred (Some n1))) ;; hput (set_m mx (w_succ (Some n2))) ;; hput (set_m mx (w_prio p)) ;;
    hput (fun h => set_q q (fun v => w_touch (touch_all (u_touch v)) v) h).
(** set_capacity 4783-4792 *)
Definition set_cap (q : nat) (cap : xq) : H unit := hput (fun h => set_q q (fun v => w_av (xsubq cap (inject_Z (u_len v))) (w_cap cap v)) h).
(** Queue.__init__ 4309-4332 *)
Definition new_queue (cap : xq) : H nat := fun h =>
  let a := nm h in let b := S a in
  (mkH (upd (upd (mm h) a (mkQm (Some b) None (Fin 0) None (nq h) (ck h))) b (mkQm None (Some a) (Fin 0) None (nq h) (ck h))) (S b)
     (upd (qq h) (nq h) (mkQu a b 0 cap cap [] 0 0 0 [(ck h, 0%Z)] [])) (S (nq h)) (mb h) (ck h) (its h) (ni h), Rok (nq h)).

(** *** reading a queue *)
(** while mx != self._tail: …; mx = mx.successor *)
Fixpoint walk (fuel tl mx : nat) (h : heap) : res (list nat) :=
  match fuel with
  | O => Rer EFuel
  | S f => if Nat.eqb mx tl then Rok [] else rbind (sc mx h) (fun m => rbind (walk f tl m h) (fun l => Rok (mx :: l)))
  end.
(** while mx != self._head: …; mx = mx.predecessor *)
Fixpoint walk_back (fuel hd mx : nat) (h : heap) : res (list nat) :=
  match fuel with
  | O => Rer EFuel
  | S f => if Nat.eqb mx hd then Rok [] else rbind (pd mx h) (fun m => rbind (walk_back f hd m h) (fun l => Rok (mx :: l)))
  end.
Definition members (q : nat) (h : heap) : res (list nat) := rbind (sc (u_head (qq h q)) h) (fun m => walk (S (nm h)) (u_tail (qq h q)) m h).
Definition members_back (q : nat) (h : heap) : res (list nat) := rbind (pd (u_tail (qq h q)) h) (fun m => walk_back (S (nm h)) (u_head (qq h q)) m h).
(** head 5072, tail 5084, successor 9861-9862, predecessor 9878-9879, __contains__ 5148, __len__ 5211 *)
Definition q_head (q : nat) (h : heap) : res (option nat) := rbind (sc (u_head (qq h q)) h) (fun m => Rok (m_comp (mm h m))).
Definition q_tail (q : nat) (h : heap) : res (option nat) := rbind (pd (u_tail (qq h q)) h) (fun m => Rok (m_comp (mm h m))).
Definition q_successor (c q : nat) (h : heap) : res (option nat) := match member c q h with None => Rer EValue | Some m => rbind (sc m h) (fun m => Rok (m_comp (mm h m))) end.
Definition q_predecessor (c q : nat) (h : heap) : res (option nat) := match member c q h with None => Rer EValue | Some m => rbind (pd m h) (fun m => Rok (m_comp (mm h m))) end.
Definition q_contains (c q : nat) (h : heap) : bool := match member c q h with None => false | Some _ => true end.
(** index 9608-9631 *)
Fixpoint index_from (fuel m1 mx : nat) (n : Z) (h : heap) : res Z :=
  match fuel with
  | O => Rer EFuel
  | S f => if Nat.eqb mx m1 then Rok n else rbind (sc mx h) (fun m => index_from f m1 m (n + 1) h)
  end.
Definition q_index (c q : nat) (h : heap) : res Z :=
  match member c q h with None => Rok (-1)%Z | Some m1 => rbind (sc (u_head (qq h q)) h) (fun m => index_from (S (nm h)) m1 m 0 h) end.
(** __getitem__ with an int 5183-5196 *)
Fixpoint nth_from (fuel tl : nat) (key count : Z) (mx : nat) (h : heap) : res (option nat) :=
  match fuel with
  | O => Rer EFuel
  | S f => if Nat.eqb mx tl then Rok None else if Z.eqb count key then Rok (m_comp (mm h mx)) else rbind (sc mx h) (fun m => nth_from f tl key (count + 1) m h)
  end.
Definition q_get (q : nat) (key : Z) (h : heap) : res (option nat) :=
  let len := u_len (qq h q) in
  let key := if (key <? 0)%Z then (key + len)%Z else key in
  if (key <? 0)%Z || (len <=? key)%Z then Rer EIndex else rbind (sc (u_head (qq h q)) h) (fun m => nth_from (S (nm h)) (u_tail (qq h q)) key 0 m h).
(** __getitem__ with a slice 5151-5181; slice.indices is that of Python *)
Definition clip (lo hi n : Z) (x : option Z) (dflt : Z) : Z :=
  match x with None => dflt | Some v => if (v <? 0)%Z then Z.max (v + n) lo else Z.min v hi end.
Definition indices (start stop : option Z) (step n : Z) : Z * Z :=
  if (0 <? step)%Z then (clip 0 n n start 0, clip 0 n n stop n)%Z else (clip (-1) (n - 1) n start (n - 1), clip (-1) (n - 1) n stop (-1))%Z.
Fixpoint slice_up (fuel tl : nat) (stop step target count : Z) (mx : nat) (h : heap) : res (list (option nat)) :=
  match fuel with
  | O => Rer EFuel
  | S f =>
    if Nat.eqb mx tl then Rok [] else if (stop <=? target)%Z then Rok []
    else rbind (sc mx h) (fun m =>
      if Z.eqb target count then rbind (slice_up f tl stop step (target + step) (count + 1) m h) (fun l => Rok (m_comp (mm h mx) :: l))
      else slice_up f tl stop step target (count + 1) m h)
  end.
Fixpoint slice_down (fuel hd : nat) (stop step target count : Z) (mx : nat) (h : heap) : res (list (option nat)) :=
  match fuel with
  | O => Rer EFuel
  | S f =>
    if Nat.eqb mx hd then Rok [] else if (target <=? stop)%Z then Rok []
    else rbind (pd mx h) (fun m =>
      if Z.eqb target count then rbind (slice_down f hd stop step (target + step) (count - 1) m h) (fun l => Rok (m_comp (mm h mx) :: l))
      else slice_down f hd stop step target (count - 1) m h)
  end.
Definition q_slice (q : nat) (start stop : option Z) (step : Z) (h : heap) : res (list (option nat)) :=
  if (step =? 0)%Z then Rer EValue
  else
    let '(a, b) := indices start stop step (u_len (qq h q)) in
    if (0 <? step)%Z then rbind (sc (u_head (qq h q)) h) (fun m => slice_up (S (nm h)) (u_tail (qq h q)) b step a 0 m h)
    else rbind (pd (u_tail (qq h q)) h) (fun m => slice_down (S (nm h)) (u_head (qq h q)) b step a (u_len (qq h q) - 1) m h).

(** pop 5086-5108 *)
Definition pop (q : nat) (io : option Z) : H (option nat) :=
  c <- rd (match io with None => q_head q | Some i => q_get q i end) ;
  match c with Some c => leave c q ;; hret (Some c) | None => hret None end.
(** clear 5706-5717 *)
Fixpoint clear_from (fuel q mx : nat) : H unit :=
  match fuel with
  | O => hraise EFuel
  | S f =>
    tl <- rd (fun h => Rok (u_tail (qq h q))) ;
    if Nat.eqb mx tl then hret tt
    else
      c <- rd (fun h => Rok (m_comp (mm h mx))) ; m <- rd (sc mx) ;
      match c with Some c => leave c q | None => hraise EAttr end ;; clear_from f q m
  end.
Definition clear (q : nat) : H unit := n <- rd (fun h => Rok (nm h)) ; m <- rd (fun h => sc (u_head (qq h q)) h) ; clear_from (S n) q m.
(** extend 5389-5433: components of the source (for a queue as source: entering the present queue does not change another one, and
    nothing is entered when source and queue are the same) *)
Definition extend (q : nat) (source : list nat) : H unit := hfor source (fun c => b <- rd (fun h => Rok (q_contains c q h)) ; if (b : bool) then hret tt else enter c q None).
(** the components of a queue: as_set 5436, as_list 5439; mx.component of a member is never None *)
Definition comp_of (h : heap) (m : nat) : nat := match m_comp (mm h m) with Some c => c | None => 0%nat end.
Definition comps (q : nat) (h : heap) : res (list nat) := rbind (members q h) (fun l => Rok (map (comp_of h) l)).
(** copies the selected members to a queue, with their priority or 0; the loops of union … copy run over queues that do not change meanwhile *)
Definition copy_to (q1 : nat) (keep : nat -> bool) (prio : bool) (l : list nat) : H unit :=
  hfor l (fun m =>
    c <- rd (fun h => Rok (comp_of h m)) ;
    if keep c then p <- rd (fun h => Rok (if prio then m_prio (mm h m) else Fin 0)) ; t <- rd (fun h => Rok (u_tail (qq h q1))) ; insert_in_front_of t c q1 p
    else hret tt).
(** union 5441-5492 *)
Definition union (a b : nat) : H nat :=
  q1 <- new_queue PInf ; sa <- rd (comps a) ; la <- rd (members a) ; copy_to q1 (fun _ => true) false la ;;
  lb <- rd (members b) ; copy_to q1 (fun c => negb (memb c sa)) false lb ;; hret q1.
(** intersection 5494-5538 *)
Definition intersection (a b : nat) : H nat :=
  q1 <- new_queue PInf ; sb <- rd (comps b) ; la <- rd (members a) ; copy_to q1 (fun c => memb c sb) false la ;; hret q1.
(** difference 5540-5580 *)
Definition difference (a b : nat) : H nat :=
  q1 <- new_queue PInf ; sb <- rd (comps b) ; la <- rd (members a) ; copy_to q1 (fun c => negb (memb c sb)) true la ;; hret q1.
(** symmetric_difference 5582-5628 *)
Definition symmetric_difference (a b : nat) : H nat :=
  q1 <- new_queue PInf ; sa <- rd (comps a) ; sb <- rd (comps b) ; la <- rd (members a) ; copy_to q1 (fun c => negb (memb c sa && memb c sb)) false la ;;
  lb <- rd (members b) ; copy_to q1 (fun c => negb (memb c sa && memb c sb)) false lb ;; hret q1.
(** copy 5630-5670 (copy_capacity sets the tally only), move 5672-5704 *)
Definition copy (a : nat) (cap : bool) : H nat :=
  q1 <- new_queue PInf ; (if cap then k <- rd (fun h => Rok (u_cap (qq h a))) ; hput (set_q q1 (w_cap k)) else hret tt) ;;
  la <- rd (members a) ; copy_to q1 (fun _ => true) true la ;; hret q1.
Definition move (a : nat) (cap : bool) : H nat := q1 <- copy a cap ; clear a ;; hret q1.

(** *** iteration: __iter__ 5360-5387 *)
(** iter(q): nothing happens before the first next *)
Definition new_iter (q : nat) : H nat := fun h => (mkH (mm h) (nm h) (qq h) (nq h) (mb h) (ck h) (upd (its h) (ni h) (ItNew q)) (S (ni h)), Rok (ni h)).
(** 5374-5379 *)
Definition add_new (l ms : list nat) : list nat := fold_left (fun acc m => if memb m acc then acc else acc ++ [m]) ms l.
Fixpoint iter_loop (fuel i q seq : nat) (l : list nat) (ix : nat) : H (option nat) :=
  match fuel with
  | O => hraise EFuel
  | S f =>
    t <- rd (fun h => Rok (match alookup seq (u_touch (qq h q)) with Some b => b | None => false end)) ;
    if (ix <? length l)%nat || t then
      if (t : bool) then
        ms <- rd (members q) ;
        hput (set_q q (fun v => w_touch (aset seq false (u_touch v)) v)) ;;
        iter_loop f i q seq (add_new (firstn ix l) ms) ix
      else
        c <- rd (fun h => Rok (m_comp (mm h (nth ix l 0%nat)))) ;
        match c with
        | Some c => hput (set_it i (ItRun q seq l (S ix))) ;; hret (Some c)
        | None => iter_loop f i q seq l (S ix)
        end
    else hput (fun h => set_it i ItDone (set_q q (fun v => w_touch (adel seq (u_touch v)) v) h)) ;; hret None
  end.
(** next(iterator); None: StopIteration *)
Definition next (i : nat) : H (option nat) :=
  x <- rd (fun h => Rok (its h i)) ;
  match x with
  | ItDone => hret None
  | ItNew q =>
    hput (set_q q (fun v => mkQu (u_head v) (u_tail v) (u_len v) (u_cap v) (u_av v) (aset (S (u_seq v)) false (u_touch v)) (S (u_seq v)) (u_arr v) (u_dep v) (u_llog v) (u_slog v))) ;;
    seq <- rd (fun h => Rok (u_seq (qq h q))) ; l <- rd (members q) ; n <- rd (fun h => Rok (nm h)) ; iter_loop (length l + n + 3) i q seq l 0
  | ItRun q seq l ix => n <- rd (fun h => Rok (nm h)) ; iter_loop (length l + n + 3) i q seq l ix
  end.

(** *** operations of a program *)
Inductive qop :=
| QNew (cap : xq)
| QEnter (c q : nat) (po : option xq)
| QEnterHead (c q : nat)
| QEnterFront (c q pos : nat)
| QEnterBehind (c q pos : nat)
| QInsert (n : Z) (c q : nat)
| QLeave (c q : nat)
| QLeaveAll (c : nat)
| QPrio (c q : nat) (p : xq)
| QSetCap (q : nat) (cap : xq)
| QPop (q : nat) (io : option Z)
| QClear (q : nat)
| QExtend (q : nat) (source : list nat)
| QUnion (a b : nat)
| QInter (a b : nat)
| QDiff (a b : nat)
| QSym (a b : nat)
| QCopy (a : nat) (cap : bool)
| QMove (a : nat) (cap : bool)
| QIter (q : nat)
| QNext (i : nat)
| QTick (dt : Q).
Definition unit_ (m : H unit) : H (option nat) := m ;; hret None.
Definition some_ (m : H nat) : H (option nat) := x <- m ; hret (Some x).
Definition qexec (o : qop) : H (option nat) :=
  match o with
  | QNew cap => some_ (new_queue cap)
  | QEnter c q po => unit_ (enter c q po)
  | QEnterHead c q => unit_ (enter_at_head c q)
  | QEnterFront c q pos => unit_ (enter_in_front_of c q pos)
  | QEnterBehind c q pos => unit_ (enter_behind c q pos)
  | QInsert n c q => unit_ (insert n c q)
  | QLeave c q => unit_ (leave c q)
  | QLeaveAll c => unit_ (leave_all c)
  | QPrio c q p => unit_ (set_prio c q p)
  | QSetCap q cap => unit_ (set_cap q cap)
  | QPop q io => pop q io
  | QClear q => unit_ (clear q)
  | QExtend q source => unit_ (extend q source)
  | QUnion a b => some_ (union a b)
  | QInter a b => some_ (intersection a b)
  | QDiff a b => some_ (difference a b)
  | QSym a b => some_ (symmetric_difference a b)
  | QCopy a cap => some_ (copy a cap)
  | QMove a cap => some_ (move a cap)
  | QIter q => some_ (new_iter q)
  | QNext i => next i
  | QTick dt => unit_ (hput (fun h => mkH (mm h) (nm h) (qq h) (nq h) (mb h) (ck h + dt) (its h) (ni h)))
  end.
(** no queues, no members, time t0 *)
Definition start (t0 : Q) : heap :=
  mkH (fun _ => mkQm None None (Fin 0) None 0 0) 0 (fun _ => mkQu 0 0 0 PInf PInf [] 0 0 0 [] []) 0 (fun _ => []) t0 (fun _ => ItDone) 0.
(** the queues and generators an operation names exist; time does not go back *)
Definition qwf (h : heap) (o : qop) : Prop :=
  match o with
  | QNew _ | QLeaveAll _ => True
  | QEnter _ q _ | QEnterHead _ q | QEnterFront _ q _ | QEnterBehind _ q _ | QInsert _ _ q | QLeave _ q | QPrio _ q _ | QSetCap q _ | QPop q _ | QClear q | QExtend q _ | QIter q => (q < nq h)%nat
  | QUnion a b | QInter a b | QDiff a b | QSym a b => (a < nq h /\ b < nq h)%nat
  | QCopy a _ | QMove a _ => (a < nq h)%nat
  | QNext i => (i < ni h)%nat
  | QTick dt => 0 <= dt
  end.
(** the heaps that can occur: after any operations, failed ones included *)
Inductive qreach : heap -> Prop :=
| qr_start : forall t0, qreach (start t0)
| qr_step : forall h o h' r, qreach h -> qwf h o -> qexec o h = (h', r) -> qreach h'.
