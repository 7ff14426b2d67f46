(** Property C63: remaining_duration(). *)
From Coq Require Import QArith Lqa List Bool Arith ZArith Lia.
From Verif Require Import Base Kernel Wp KernelE KernelL KernelX KernelT KernelU KernelR KernelQ KernelS KernelI KernelP KernelO PropSched PropCalls.
Import ListNotations.
Open Scope Q_scope.

(** the answer is the (finite) duration d *)
Definition lasts (a : xq) (d : Q) : Prop := match a with Fin q => q == d | PInf => False end.

Lemma event_status : forall c t s, PI s -> pending c t s -> In (c_status (comps s c)) [Scheduled; Requesting; Waiting].
Proof.
  intros c t s [Q B] P. destruct (pending_evs c t s ltac:(apply Q) P) as (e & V & _).
  destruct (c_status (comps s c)) eqn:S; cbn; auto; exfalso;
    (assert (K : evs c s = []) by (apply evs_off; [apply Q|]; apply EI_stat_off; [apply Q|]; intros [K|[K|K]]; congruence)); congruence.
Qed.
(** a component with an event for time T: the time till T *)
Theorem C63_pending : forall s c T, reach_t s -> pending c T s -> lasts (remaining s c) (T - now s).
Proof.
  intros s c T H P. pose proof (reach_t_PI _ H) as PP. destruct (pending_evs c T s ltac:(apply PP) P) as (e & V & TE & SC & ON).
  pose proof (event_status c T s PP P) as K. unfold remaining. rewrite SC.
  destruct K as [K|[K|[K|[]]]]; rewrite <- K; cbn; lra.
Qed.

Lemma passivate_rem : forall c s, wp (passivate c) (fun _ s' => c_status (comps s' c) = Passive /\
  c_rem (comps s' c) = if steqb (c_status (comps s c)) Current then Fin 0 else xsubq (c_sched (comps s c)) (now s)) (fun _ _ => True) s.
Proof.
  intros c s. unfold passivate. apply wp_bind, wp_stat. apply wp_bind.
  eapply wp_conseq with (X := fun _ _ => True) (Q := fun _ s1 => c_rem (comps s1 c) = if steqb (c_status (comps s c)) Current then Fin 0 else xsubq (c_sched (comps s c)) (now s));
    [|cbv beta; intros _ s1 K; apply wp_bind, wp_setc, wp_setc; rewrite !comps_same; auto | auto].
  destruct (steqb (c_status (comps s c)) Current); [apply wp_setc; rewrite comps_same; auto|].
  apply wp_bind. eapply wp_conseq; [apply (frames_wp _ _ _ s (z_check_notdata c c)) | cbv beta | auto]. intros _ s1 K1.
  apply wp_bind. eapply wp_conseq; [apply (frames_wp _ _ _ s1 (z_remove c c)) | cbv beta | auto]. intros _ s2 K2.
  apply wp_bind. eapply wp_conseq; [apply (frames_wp _ _ _ s2 (z_check_fail c c)) | cbv beta | auto]. intros _ s3 K3.
  apply wp_bind, wp_get, wp_setc. rewrite comps_same. cbn [c_rem w_rem].
  destruct K1 as (N1 & _ & _ & S1 & _), K2 as (N2 & _ & _ & S2 & _), K3 as (N3 & _ & _ & S3 & _). congruence.
Qed.
(** a passivated component: the time that was left at the time of passivate, whatever calls not directed at it follow *)
Theorem C63_passivated : forall s n c s0 s' d, reach_t s -> ended s = false -> exec n (OPassivate c) s = (s0, Ok tt) -> idle_of c s0 s' ->
  (exists T, pending c T s /\ d = T - now s) \/ (c_status (comps s c) = Current /\ d = 0) ->
  c_status (comps s' c) = Passive /\ lasts (remaining s' c) d.
Proof.
  intros s n c s0 s' d H N E I D. pose proof (reach_t_PI _ H) as PP.
  pose proof (wp_exec _ _ _ _ _ _ _ E (passivate_rem c s)) as (S & R).
  assert (P0 : PI s0). { apply (PI_exec n (OPassivate c) s s0 (Ok tt)); auto; [|discriminate]. split; auto; exact Logic.I. }
  destruct (idle_out c s0 P0 (or_introl S)) as (O1 & _).
  destruct (idle_of_keep _ _ _ I (started_Seqs _ (started_exec _ _ _ _ _ (started_t _ H) E)) O1) as (_ & K).
  pose proof (keep_fields _ _ _ K) as (F1 & _ & F3 & _). rewrite S in F1. split; [exact F1|]. unfold remaining. rewrite F1, F3, R.
  destruct D as [(T & P & ->)|(C & ->)].
  - destruct (pending_evs c T s ltac:(apply PP) P) as (e & V & TE & SC & ON). rewrite SC.
    destruct (event_status c T s PP P) as [X|[X|[X|[]]]]; rewrite <- X; cbn; lra.
  - rewrite C. cbn. lra.
Qed.
(** an interrupted component: the time that was left at the time of the (first) interrupt *)
Theorem C63_interrupted : forall s n c T s0 k s1, reach_t s -> nowhere c s -> c_status (comps s c) = Scheduled -> pending c T s ->
  exec n (OInterrupt c) s = (s0, Ok tt) -> interrupted c s0 k s1 -> lasts (remaining s1 c) (T - now s).
Proof.
  intros s n c T s0 k s1 H N S P E I. pose proof (reach_t_PI _ H) as PP. assert (EI0 : EI s) by apply PP.
  destruct (pending_evs c T s EI0 P) as (e & V & TE & SC & ON).
  pose proof (wp_exec _ _ _ _ _ _ _ E (interrupt_post c s EI0 ON S)) as W.
  assert (Q : asleep c (Fin (e_t e - now s)) 1 s0).
  { destruct W as (W1 & W2 & W3 & W4 & W5 & W6 & W7 & W8). split; [apply (started_exec _ _ _ _ _ (started_t _ H) E)|].
    split; [apply (out_same c s); auto; apply nowhere_out; auto|]. rewrite SC in W5. cbn in W5. auto. }
  destruct (interrupted_asleep _ _ _ Q _ _ I) as (A1 & A2 & A3 & A4 & A5 & A6 & A7). unfold remaining. rewrite A4, A7. cbn. lra.
Qed.
(** component 2, scheduled for 5, is passivated at time 2, and component 1 goes on until 11: 3 is left *)
Example C63_case : let s := st env0 (firstn 4 two_holds) in let s0 := run1 (OPassivate 2) s in
  let s' := run1 (OSet 0 1%Z) (run1 (OHold 1 (SDur (Fin 9)) (Fin 0) false 0 None) s0) in
  reach_t s /\ ended s = false /\ exec 19 (OPassivate 2) s = (s0, Ok tt) /\ pending 2 5 s /\ now s == 2 /\ idle_of 2 s0 s' /\ remaining s' 2 = Fin (5 - 2).
Proof.
  intros s s0 s'. split; [apply st_reach_t; vm_compute; reflexivity|]. split; [vm_compute; reflexivity|]. split; [apply run1_ok; vm_compute; reflexivity|].
  split; [apply (evs_pending 2 _ (mkEv 5 (Fin 0) 2 2)); vm_compute; reflexivity|]. split; [vm_compute; reflexivity|].
  split; [|vm_compute; reflexivity]. unfold s'. generalize s0. clear. intros s. apply idle2; discriminate || tauto.
Qed.
(** component 1, being current, passivates itself *)
Example C63_case_current : let s := st env0 (firstn 4 two_holds) in
  reach_t s /\ ended s = false /\ c_status (comps s 1) = Current /\ exec 19 (OPassivate 1) s = (run1 (OPassivate 1) s, Ok tt) /\ remaining (run1 (OPassivate 1) s) 1 = Fin 0.
Proof.
  intros s. split; [apply st_reach_t; vm_compute; reflexivity|]. split; [vm_compute; reflexivity|]. split; [vm_compute; reflexivity|].
  split; [apply run1_ok; vm_compute; reflexivity|]. vm_compute. reflexivity.
Qed.
(** the case left out: the component that is passivated has been interrupted. Its event is gone, and passivate takes the time until its old
    scheduled time: 3 was left when it was interrupted (at 2), it is passivated at 9, and -4 is left *)
Theorem C63_passivate_interrupted_refuted : exists s c s', reach_t s /\ ended s = false /\ c_status (comps s c) = Interrupted /\
  lasts (remaining s c) 3 /\ exec 19 (OPassivate c) s = (s', Ok tt) /\ lasts (remaining s' c) (-(4)).
Proof.
  set (l := firstn 4 two_holds ++ [OInterrupt 2; OHold 1 (SDur (Fin 7)) (Fin 0) false 0 None; OStep]).
  exists (st env0 l), 2%nat, (run1 (OPassivate 2) (st env0 l)).
  split; [apply st_reach_t; vm_compute; reflexivity|]. split; [vm_compute; reflexivity|]. split; [vm_compute; reflexivity|].
  split; [vm_compute; reflexivity|]. split; [apply run1_ok; vm_compute; reflexivity|]. vm_compute. reflexivity.
Qed.
Print Assumptions C63_pending.
Print Assumptions C63_passivated.
Print Assumptions C63_interrupted.
Print Assumptions C63_passivate_interrupted_refuted.
