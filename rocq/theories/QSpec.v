(** What the operations on queues mean, on plain lists of (component, priority). Nothing here comes from the code. *)
From Coq Require Import QArith List Bool Arith ZArith.
From Verif Require Import Base QHeap.
Import ListNotations.
Open Scope Q_scope.

Notation entry := (nat * xq)%type.
(** the queues: how many, their capacities, their contents *)
Record plain := mkP { p_n : nat; p_cap : nat -> xq; p_l : nat -> list entry }.

Definition names (L : list entry) : list nat := map fst L.
Definition is_in (c : nat) (L : list entry) : bool := memb c (names L).
(** no room for one more *)
Definition is_full (cap : xq) (L : list entry) : bool := xltb cap (Fin (inject_Z (Z.of_nat (length L) + 1))).
(** e becomes number k *)
Definition put (k : nat) (e : entry) (L : list entry) : list entry := firstn k L ++ e :: skipn k L.
(** without c *)
Definition drop (c : nat) (L : list entry) : list entry := filter (fun e => negb (Nat.eqb c (fst e))) L.
(** the priority of the last, of the first, of number k; 0 when there is none *)
Definition prio_last (L : list entry) : xq := last (map snd L) (Fin 0).
Definition prio_nth (k : nat) (L : list entry) : xq := nth k (map snd L) (Fin 0).
(** the number of c *)
Fixpoint pos_of (c : nat) (L : list entry) : nat := match L with [] => 0%nat | e :: t => if Nat.eqb c (fst e) then 0%nat else S (pos_of c t) end.
(** just behind the last one that does not have a higher number than p *)
Fixpoint behind_le (p : xq) (L : list entry) : nat :=
  match L with
  | [] => 0%nat
  | e :: t => match behind_le p t with O => if xleb (snd e) p then 1%nat else 0%nat | S k => S (S k) end
  end.
(** just before the first one with a higher number than p *)
Fixpoint before_gt (p : xq) (L : list entry) : nat := match L with [] => 0%nat | e :: t => if xleb (snd e) p then S (before_gt p t) else 0%nat end.
(** a place for p: at the front if the first one has a higher number, otherwise as late as possible *)
Definition place (p : xq) (L : list entry) : nat := match L with [] => 0%nat | e :: _ => if xltb p (snd e) then 0%nat else behind_le p L end.

(** how c can be added to the list of one queue *)
Definition add (cap : xq) (c k : nat) (p : xq) (L : list entry) : list entry * res (option nat) :=
  if is_in c L then (L, Rer EValue) else if is_full cap L then (L, Rer EFull) else (put k (c, p) L, Rok None).
Definition del (c : nat) (L : list entry) : list entry * res (option nat) := if is_in c L then (drop c L, Rok None) else (L, Rer EValue).
Definition nth_z (i : Z) (L : list entry) : option nat :=
  let i := if (i <? 0)%Z then (i + Z.of_nat (length L))%Z else i in
  if (i <? 0)%Z then None else nth_error (names L) (Z.to_nat i).
Fixpoint add_all (cap : xq) (l : list nat) (L : list entry) : list entry * res (option nat) :=
  match l with
  | [] => (L, Rok None)
  | c :: t => if is_in c L then add_all cap t L else if is_full cap L then (L, Rer EFull) else add_all cap t (L ++ [(c, prio_last L)])
  end.
(** the list of one queue after an operation on it, and the outcome *)
Definition on_queue (o : qop) (cap : xq) (L : list entry) : list entry * res (option nat) :=
  match o with
  | QEnter c _ None => add cap c (length L) (prio_last L) L
  | QEnter c _ (Some p) => add cap c (place p L) p L
  | QEnterHead c _ => add cap c 0 (prio_nth 0 L) L
  | QEnterFront c _ x => if negb (is_in c L) && negb (is_in x L) then (L, Rer EValue) else add cap c (pos_of x L) (prio_nth (pos_of x L) L) L
  | QEnterBehind c _ x => if negb (is_in c L) && negb (is_in x L) then (L, Rer EValue) else add cap c (S (pos_of x L)) (prio_nth (pos_of x L) L) L
  | QInsert n c _ => if (n <? 0)%Z || (Z.of_nat (length L) <? n)%Z then (L, Rer EIndex) else add cap c (Z.to_nat n) (prio_nth (Z.to_nat n) L) L
  | QLeave c _ => del c L
  | QPrio c _ p =>
    if is_in c L then (if xeqb p (prio_nth (pos_of c L) L) then L else let L' := drop c L in put (before_gt p L') (c, p) L', Rok None)
    else (L, Rer EValue)
  | QPop _ None => match L with [] => (L, Rok None) | e :: t => (t, Rok (Some (fst e))) end
  | QPop _ (Some i) => match nth_z i L with None => (L, Rer EIndex) | Some c => (drop c L, Rok (Some c)) end
  | QClear _ => ([], Rok None)
  | QExtend _ l => add_all cap l L
  | _ => (L, Rok None)
  end.
Definition zero (L : list entry) : list entry := map (fun e => (fst e, Fin 0)) L.
(** adding entries behind acc, as long as there is room *)
Fixpoint fits_from (cap : xq) (L acc : list entry) : list entry * res (option nat) :=
  match L with [] => (acc, Rok None) | e :: t => if is_full cap acc then (acc, Rer EFull) else fits_from cap t (acc ++ [e]) end.
Definition fits_n (cap : xq) (L : list entry) : list entry * res (option nat) := fits_from cap L [].
(** the queue an operation acts on, or none *)
Definition queue_of (o : qop) : option nat :=
  match o with
  | QEnter _ q _ | QEnterHead _ q | QEnterFront _ q _ | QEnterBehind _ q _ | QInsert _ _ q | QLeave _ q | QPrio _ q _ | QPop q _ | QClear q | QExtend q _ => Some q
  | _ => None
  end.
Definition p_set (P : plain) (q : nat) (L : list entry) : plain := mkP (p_n P) (p_cap P) (upd (p_l P) q L).
(** a new queue with the given contents *)
Definition p_new (P : plain) (cap : xq) (L : list entry) : plain := mkP (S (p_n P)) (upd (p_cap P) (p_n P) cap) (upd (p_l P) (p_n P) L).
Definition spec (o : qop) (P : plain) : plain * res (option nat) :=
  match queue_of o with
  | Some q => let '(L, r) := on_queue o (p_cap P q) (p_l P q) in (p_set P q L, r)
  | None =>
    let l := p_l P in
    let res := Rok (Some (p_n P)) in
    match o with
    | QNew cap => (p_new P cap [], res)
    | QSetCap q cap => (mkP (p_n P) (upd (p_cap P) q cap) (p_l P), Rok None)
    | QLeaveAll c => (mkP (p_n P) (p_cap P) (fun q => drop c (p_l P q)), Rok None)
    | QUnion a b => (p_new P PInf (zero (l a) ++ filter (fun e => negb (is_in (fst e) (l a))) (zero (l b))), res)
    | QInter a b => (p_new P PInf (filter (fun e => is_in (fst e) (l b)) (zero (l a))), res)
    | QDiff a b => (p_new P PInf (filter (fun e => negb (is_in (fst e) (l b))) (l a)), res)
    | QSym a b => (p_new P PInf (filter (fun e => negb (is_in (fst e) (l b))) (zero (l a)) ++ filter (fun e => negb (is_in (fst e) (l a))) (zero (l b))), res)
    | QCopy a k => let '(L, r) := if k then fits_n (p_cap P a) (l a) else (l a, Rok None) in
                   (p_new P (if k then p_cap P a else PInf) L, match r with Rok _ => res | Rer e => Rer e end)
    | QMove a k => let '(L, r) := if k then fits_n (p_cap P a) (l a) else (l a, Rok None) in
                   let P' := p_new P (if k then p_cap P a else PInf) L in
                   match r with Rok _ => (p_set P' a [], res) | Rer e => (P', Rer e) end
    | _ => (P, Rok None)
    end
  end.
(** the outcomes of making and asking iterators say nothing about the lists *)
Definition asks (o : qop) : bool := match o with QIter _ | QNext _ => true | _ => false end.
Definition same (P P' : plain) : Prop := p_n P = p_n P' /\ forall q, (q < p_n P)%nat -> p_cap P q = p_cap P' q /\ p_l P q = p_l P' q.
