(** Poisson.sample 21953-21975 and sample_fallback 21941-21951, with exact real numbers (no numpy). *)
From Coq Require Import Reals List.
Import ListNotations.
Open Scope R_scope.

Inductive sampled := Value (k : nat) | Fallback.
(** 21968-21975: while s < u *)
Fixpoint inverse (n : nat) (mean u : R) (k : nat) (t s : R) (last : option R) : option sampled :=
  match n with
  | O => None
  | S n =>
    if Rlt_dec s u then
      let k := S k in
      let t := t * (mean / INR k) in
      let s := s + t in
      match last with
      | Some l => if Req_EM_T l s then Some Fallback else inverse n mean u k t s (Some s)
      | None => inverse n mean u k t s (Some s)
      end
    else Some (Value k)
  end.
(** 21962-21967 *)
Definition sample (n : nat) (mean u : R) : option sampled := let t := exp (- mean) in inverse n mean u 0 t t None.
(** 21945-21951: the random numbers r 0, r 1, ... are drawn in turn; i is the number of those drawn *)
Fixpoint arrivals (n : nat) (lam : R) (r : nat -> R) (i : nat) (t : R) (k : nat) : option nat :=
  match n with
  | O => None
  | S n => let t := t + - ln (r i) / lam in if Rgt_dec t 1 then Some k else arrivals n lam r (S i) t (S k)
  end.
Definition sample_fallback (n : nat) (lam : R) (r : nat -> R) : option nat := arrivals n lam r 0 0 0.
