(** C80: the state transition diagram of components. *)
From Coq Require Import QArith Lqa List Bool Arith ZArith Lia.
From Verif Require Import Base Kernel Wp KernelE KernelL KernelX KernelT KernelU KernelR KernelQ KernelC PropRes PropSched PropCalls KernelJ.
Import ListNotations.
Open Scope Q_scope.

(** the call o is made on x (the process of x ends if x is current then; run is a call on main) *)
Definition on (s : env) (o : op) (x : nat) : Prop :=
  match o with
  | OCreate c _ _ _ _ _ _ | OActivate c _ _ _ _ _ _ _ _ | OHold c _ _ _ _ _ | OPassivate c | OInterrupt c
  | OResume c _ _ _ | OCancel c | OStandby c | ORemaining c _ _ _ | ORequest c _ _ _ _ _ _ | ORelease c _ | OWait c _ _ _ _ _ _
  | OWaitFor c _ _ _ _ _ _ | OFromStore c _ _ _ _ _ _ _ _ | OToStore c _ _ _ _ _ _ _ _ | OFilter c _ | OTouch c _ | OSkip c _ => x = c
  | OEnd => x = cur s
  | ORun _ _ _ _ => x = main
  | _ => False
  end.
(** the diagram: the calls by which a component goes from status a to another status b *)
Definition arrow (o : op) (a b : status) : Prop :=
  match o with
  | OCreate _ _ _ _ _ _ _ => a = Data /\ b = Scheduled
  | OActivate _ _ _ _ _ _ _ _ _ => b = Scheduled
  | OHold _ _ _ _ i _ => a <> Data /\ b = (if (i =? 0)%Z then Scheduled else Interrupted)
  | OPassivate _ => a <> Data /\ b = Passive
  | OInterrupt _ => a = Scheduled /\ b = Interrupted
  | OResume _ _ _ _ => a = Interrupted /\ b = Scheduled
  | OCancel _ => b = Data
  | OStandby _ => a <> Data /\ b = Standby
  | ORequest _ _ _ _ _ _ _ | OFromStore _ _ _ _ _ _ _ _ _ | OToStore _ _ _ _ _ _ _ _ _ => a <> Data /\ (b = Requesting \/ b = Scheduled)
  | OWait _ _ _ _ _ _ _ | OWaitFor _ _ _ _ _ _ _ => a <> Data /\ (b = Waiting \/ b = Scheduled)
  | OEnd => a = Current /\ b = Data
  | ORun _ _ _ _ => a = Current /\ b = Scheduled
  | _ => False
  end.
(** x is in a waiting line of a resource, a state or a store *)
Definition lined (s : env) (x : nat) : Prop :=
  exists i, In x (map fst (qs s (QReq i))) \/ In x (map fst (qs s (QWait i))) \/ In x (map fst (qs s (QFrom i))) \/ In x (map fst (qs s (QTo i))).
(** calls that may honor a component that waits in a line *)
Definition may_honor (o : op) : Prop :=
  match o with
  | OCancel _ | ORequest _ _ _ _ _ _ _ | ORelease _ _ | OResRelease _ _ | OSetCap _ _ | OSet _ _ | OTrigger _ _ _ _
  | OFromStore _ _ _ _ _ _ _ _ _ | OToStore _ _ _ _ _ _ _ _ _ | OEnterStore _ _ _ | OLeaveStore _ _ | OStoreCap _ _ | ORescan _ | OFilter _ _
  | OStep | OEnd => True
  | _ => False
  end.
Definition honored (s : env) (o : op) (x : nat) (a b : status) : Prop :=
  may_honor o /\ lined s x /\ (a = Requesting \/ a = Waiting \/ a = Interrupted) /\ b = Scheduled.
(** x has a claim on a preemptive resource that is requested *)
Definition preempted (s : env) (o : op) (x : nat) (b : status) : Prop :=
  b = Scheduled /\ match o with
  | ORequest _ args _ _ _ _ _ => exists r q p, In (r, q, p) args /\ r_preempt (rsc s r) = true /\ In x (map fst (qs s (QClaim r)))
  | _ => False
  end.
(** the scheduler takes x: it has the next event, or it is on standby and it is its turn; or nothing is left to do, and main continues *)
Definition dispatched (s : env) (o : op) (s' : env) (x : nat) (a b : status) : Prop :=
  o = OStep /\ x = cur s' /\ b = Current /\
  (((a = Scheduled \/ a = Requesting \/ a = Waiting) /\ exists e, In e (evl s) /\ e_c e = x) \/ a = Standby \/ (x = main /\ evl s = [])).

Lemma on_target : forall s o x, on s o x <-> target s o = Some x.
Proof. intros s o x. destruct o; cbn; split; intros H; try discriminate; try contradiction; congruence. Qed.
Lemma not_lined : forall s x, ~ lined s x -> NQ x s.
Proof. intros s x L q Q M. apply L. unfold mem in M. destruct q; try discriminate; eexists; eauto 6. Qed.
Lemma lined_dec : forall s x, QI s -> lined s x \/ NQ x s.
Proof.
  intros s x Q. pose proof (qi_g _ Q) as G.
  assert (K : forall q, reg q = true -> lst (comps s x) q -> mem s q x) by (intros q Rq Lq; apply (gi_mem _ _ G q x Rq); split; auto).
  destruct (c_requests (comps s x)) as [|[r v] t] eqn:E1.
  2:{ left. exists r. left. apply (K (QReq r)); [reflexivity|]. cbn. rewrite E1. left. reflexivity. }
  destruct (c_waits (comps s x)) as [|[r v] t] eqn:E2.
  2:{ left. exists r. right; left. apply (K (QWait r)); [reflexivity|]. cbn. rewrite E2. left. reflexivity. }
  destruct (c_from (comps s x)) as [|r t] eqn:E3.
  2:{ left. exists r. do 2 right; left. apply (K (QFrom r)); [reflexivity|]. cbn. rewrite E3. left. reflexivity. }
  destruct (c_to (comps s x)) as [|r t] eqn:E4.
  2:{ left. exists r. do 3 right. apply (K (QTo r)); [reflexivity|]. cbn. rewrite E4. left. reflexivity. }
  right. apply QI_NQ; auto. repeat split; auto.
Qed.
Lemma idle_NQ : forall s x, QI s -> idle (c_status (comps s x)) -> NQ x s.
Proof. intros s x Q I. apply QI_NQ; auto; [apply (proj1 (ki_l _ (qi_k _ Q) x)); auto | apply (qi_r _ Q); auto]. Qed.

Lemma bumps_dec : forall x s o, bumps x s o \/ ~ bumps x s o.
Proof.
  intros x s o. destruct o; try (right; intros []; fail). cbn [bumps].
  induction args as [|[[r q] p] t IH]; [right; intros (? & ? & ? & [] & _)|].
  destruct IH as [(r' & q' & p' & A & B)|IH]; [left; exists r', q', p'; split; [right|]; auto|].
  destruct (r_preempt (rsc s r)) eqn:E.
  - destruct (in_dec Nat.eq_dec x (map fst (qs s (QClaim r)))) as [I|I].
    + left. exists r, q, p. repeat split; auto. left. reflexivity.
    + right. intros (r' & q' & p' & [A|A] & B & C); [injection A as -> -> ->; auto | apply IH; exists r', q', p'; auto].
  - right. intros (r' & q' & p' & [A|A] & B & C); [injection A as -> -> ->; congruence | apply IH; exists r', q', p'; auto].
Qed.
Lemma bumps_preempted : forall x s o, bumps x s o -> preempted s o x Scheduled.
Proof. intros x s o B. split; [reflexivity | exact B]. Qed.
Lemma status_dec : forall a, idle a \/ a = Scheduled \/ (a = Requesting \/ a = Waiting \/ a = Interrupted).
Proof. destruct a; auto 6 with idle. Qed.
Lemma step_dec : forall o, o = OStep \/ o <> OStep.
Proof. destruct o; auto; right; discriminate. Qed.
Lemma on_dec : forall s o x, on s o x \/ ~ on s o x.
Proof.
  intros s o x. destruct (target s o) as [c|] eqn:T.
  - destruct (Nat.eq_dec c x) as [->|N]; [left; apply on_target; auto | right; intros K; apply on_target in K; congruence].
  - right. intros K. apply on_target in K. congruence.
Qed.
Lemma int_only_scheduled : forall c s, c_status (comps s c) <> Scheduled ->
  wp (interrupt c) (fun _ s' => c_status (comps s' c) = c_status (comps s c)) (fun _ s' => c_status (comps s' c) = c_status (comps s c)) s.
Proof.
  intros c s N. unfold interrupt. apply wp_bind. unfold stat. apply wp_get.
  destruct (c_status (comps s c)) eqn:E; try congruence; cbn [steqb orb negb]; try (apply wp_raise; auto; fail).
  apply wp_setc. rewrite comps_same. auto.
Qed.

Lemma status_eqdec : forall a b : status, a = b \/ a <> b.
Proof. destruct a, b; auto; right; discriminate. Qed.

Theorem C80_diagram : forall s o s' x, reachable s -> call s o s' ->
  let a := c_status (comps s x) in let b := c_status (comps s' x) in a <> b ->
  (on s o x /\ arrow o a b) \/ dispatched s o s' x a b \/ preempted s o x b \/ honored s o x a b.
Proof.
  intros s o s' x RE (WF & n & r & E & CA) a b NE.
  pose proof (reach_p_QI _ _ RE) as Q. pose proof (ki_l _ (qi_k _ Q)) as L. pose proof (ki_e _ (qi_k _ Q)) as EV.
  destruct (step_dec o) as [->|NS].
  { destruct r as [u|e]; [|destruct (CA e eq_refl) as ((_ & _ & []) & _)].
    pose proof (j_step n s) as W1. pose proof (c_step n s Q) as W2. pose proof (w_step_cur n s) as W3. cbn [exec] in E. unfold wp in W1, W2, W3. rewrite E in W1, W2, W3.
    destruct (Nat.eq_dec x (cur s')) as [->|NX].
    - right; left. split; [auto|]. split; [auto|]. split; [exact W2|].
      destruct W3 as [((_ & _ & W3) & _)|(_ & [(W3 & W4 & _)|(e & W3 & W4 & _)])]; auto.
      left. split; [|eauto]. unfold a. rewrite <- W4. apply (ei_stat _ EV). apply (ei_onev _ EV). apply in_map; auto.
    - assert (B : b = Scheduled) by (destruct (W1 x) as [K|[K|(K & _)]]; [exfalso; apply NE; symmetry; exact K | auto | congruence]).
      assert (C : idle a \/ NQ x s -> False).
      { intros C. assert (N : NQ x s) by (destruct C; auto; apply idle_NQ; auto). pose proof (n_step x n s N) as W4. unfold wp in W4. rewrite E in W4. apply NE. symmetry. apply W4. auto. }
      right; right; right. split; [exact Logic.I|]. destruct (lined_dec s x Q); [|exfalso; auto]. split; auto. split; auto.
      destruct (status_dec a) as [K|[K|K]]; auto; [exfalso; auto | exfalso; congruence]. }
  pose proof (j_exec n o s NS L) as W1. unfold wp in W1. rewrite E in W1.
  assert (J : RJ (match target s o with Some c => c | None => 0%nat end) (makes o) s s') by (destruct r; auto). clear W1.
  assert (HON : may_honor o -> b = Scheduled -> (NQ x s -> False) -> honored s o x a b).
  { intros M B C. split; auto. destruct (lined_dec s x Q); [|exfalso; auto]. split; auto. split; auto.
    destruct (status_dec a) as [K|[K|K]]; auto; [exfalso; apply C; apply idle_NQ; auto | exfalso; congruence]. }
  assert (QU : quiet o = true -> c_status (comps s' x) = c_status (comps s x) \/ (on s o x /\ gives o b)).
  { intros U. pose proof (o_exec n o s U L) as W. unfold wp in W. rewrite E in W.
    assert (K : RO (match target s o with Some c => c | None => 0%nat end) (gives o) s s') by (destruct r; auto).
    destruct (K x) as [K1|(K1 & K2)]; auto. right. split; auto. apply on_target. destruct (target s o) as [c|] eqn:T; [congruence|].
    exfalso. destruct o; cbn in T, K2; try discriminate; auto. }
  destruct (on_dec s o x) as [ON|OFF].
  - pose proof (proj1 (on_target s o x) ON) as T. rewrite T in J.
    assert (SHY : shy o = true -> a <> Data).
    { intros U D. pose proof (d_exec n o s x U T D) as W. unfold wp in W. rewrite E in W. apply NE. change (a = c_status (comps s' x)). rewrite D. destruct r; auto. }
    assert (QU2 : quiet o = true -> gives o b) by (intros U; destruct (QU U) as [K|(_ & K)]; [exfalso; apply NE; symmetry; exact K | exact K]).
    destruct WF as (_ & WF).
    destruct o; try congruence; try contradiction; cbn [on quiet gives shy arrow may_honor] in *.
    + left. split; auto. subst c. split; [|auto]. destruct WF as (_ & P). unfold pristine, pristineb in P. unfold a. destruct (c_status (comps s x)); auto; discriminate.
    + left. split; auto.
    + left. split; auto.
    + left. split; auto.
    + left. split; auto. subst c. split; auto. destruct (status_dec a) as [K|[K|K]]; auto; exfalso;
        (assert (a <> Scheduled) by (destruct K as [|[|[|]]] || destruct K as [|[|]]; congruence);
         pose proof (int_only_scheduled x s H) as W; unfold wp in W; cbn [exec] in E; rewrite E in W; apply NE; symmetry; destruct r; exact W).
    + left. split; auto. subst c. split; auto. unfold a. destruct (c_status (comps s x)) eqn:SX; auto; exfalso;
        (assert (c_status (comps s x) <> Interrupted) by congruence; pose proof (j_resume_no x all prio urgent s H) as W; unfold wp in W; cbn [exec] in E; rewrite E in W;
         apply NE; unfold a, b; replace s' with s by (destruct r; auto); auto).
    + subst c. destruct (J x) as [K|[K|(_ & K)]]; [exfalso; apply NE; symmetry; exact K | | left; auto].
      right; right; right. apply HON; auto. intros N. pose proof (n_cancel x n s N) as W. unfold wp in W. cbn [exec] in E. rewrite E in W.
      destruct r; [rewrite K in W; discriminate | apply NE; symmetry; exact W].
    + left. split; auto.
    + contradiction QU2; auto.
    + left. split; auto. split; auto. destruct (J x) as [K|[K|(_ & K)]]; [exfalso; apply NE; symmetry; exact K | auto | auto].
    + subst c. destruct (J x) as [K|[K|(_ & [])]]; [exfalso; apply NE; symmetry; exact K|].
      right; right; right. apply HON; auto. intros N. pose proof (x_release x n x args s) as W. cbn [exec] in E. rewrite E in W. cbn [fst] in W.
      destruct (W N) as (_ & W2). apply NE. symmetry. apply (keep_fields _ _ _ W2).
    + left. split; auto.
    + left. split; auto.
    + left. split; auto. split; auto. destruct (J x) as [K|[K|(_ & K)]]; [exfalso; apply NE; symmetry; exact K | auto | auto].
    + left. split; auto. split; auto. destruct (J x) as [K|[K|(_ & K)]]; [exfalso; apply NE; symmetry; exact K | auto | auto].
    + subst c. destruct (J x) as [K|[K|(_ & [])]]; [exfalso; apply NE; symmetry; exact K|].
      right; right; right. apply HON; auto. intros N. pose proof (n_filter x n x f s) as W. cbn [exec] in E. rewrite E in W. cbn [fst] in W.
      destruct (W N) as (_ & W2). apply NE. symmetry. exact W2.
    + contradiction QU2; auto.
    + contradiction QU2; auto.
    + destruct r as [u|e]; [|destruct (CA e eq_refl) as ((_ & _ & []) & _)]. left. split; auto. destruct WF as (_ & WF). unfold a, b. subst x. split; auto.
      pose proof (n_end n s) as W. unfold wp in W. cbn [exec] in E. unfold bind, get in E. rewrite E in W. exact W.
    + left. split; auto. destruct WF as (_ & WF). unfold a. subst x. split; auto.
  - assert (B : b = Scheduled).
    { destruct (J x) as [K|[K|(K & M)]]; auto; [exfalso; apply NE; symmetry; exact K|]. exfalso. destruct (target s o) as [c|] eqn:T.
      - apply OFF. apply on_target. congruence.
      - destruct o; cbn in T, M; try discriminate; auto. }
    destruct (quiet o) eqn:U.
    { exfalso. destruct (QU eq_refl) as [K|(K & _)]; [apply NE; symmetry; exact K | auto]. }
    destruct (bumps_dec x s o) as [BU|BU]; [right; right; left; rewrite B; apply bumps_preempted; auto|].
    right; right; right. apply HON; auto; [destruct o; try discriminate; exact Logic.I|].
    intros N. assert (D : ~ directed x s o) by (destruct o; cbn in *; try tauto; try discriminate; intuition congruence).
    pose proof (x_exec x n o s NS N D) as W. unfold wp in W. rewrite E in W. assert (W' : Rx x s s') by (destruct r; auto).
    destruct (W' N) as (_ & W2). apply NE. symmetry. apply (keep_fields _ _ _ W2).
Qed.

(** a component that is data or passive stays so until it is called itself or loses a claim to a preempting request (main also continues if nothing is
    left to do); and a component becomes current only by a scheduler step *)
Theorem C80_asleep : forall s o s' x, reachable s -> call s o s' -> x <> main -> c_status (comps s x) = Data \/ c_status (comps s x) = Passive ->
  ~ on s o x -> (forall r, r_preempt (rsc s r) = true -> ~ In x (map fst (qs s (QClaim r)))) -> c_status (comps s' x) = c_status (comps s x).
Proof.
  intros s o s' x RE C M A OFF P. destruct (status_eqdec (c_status (comps s x)) (c_status (comps s' x))) as [E|E]; auto. exfalso.
  destruct (C80_diagram s o s' x RE C E) as [(K & _)|[K|[K|K]]].
  - auto.
  - destruct K as (_ & _ & _ & [(K & _)|[K|(K & _)]]); [| |auto]; destruct A; intuition congruence.
  - destruct K as (_ & K). destruct o; try contradiction. destruct K as (r & q & p & _ & K1 & K2). apply (P r); auto.
  - destruct K as (_ & _ & K & _). destruct A; intuition congruence.
Qed.
Theorem C80_current : forall s o s' x, reachable s -> call s o s' -> c_status (comps s x) <> Current -> c_status (comps s' x) = Current ->
  o = OStep /\ x = cur s'.
Proof.
  intros s o s' x RE C A B. destruct (C80_diagram s o s' x RE C) as [(_ & K)|[K|[K|K]]]; [congruence| | | |].
  - exfalso. rewrite B in K. destruct o; cbn in K; try (destruct (_ =? 0)%Z); intuition congruence.
  - destruct K as (K1 & K2 & _). auto.
  - destruct K as (K & _). congruence.
  - destruct K as (_ & _ & _ & K). congruence.
Qed.

(** two requesters of a store: 1 waits in it, is activated with keep_request=True, and is then interrupted: it is interrupted and still in the line.  An item
    that enters the store for it schedules it, although nobody has resumed it *)
Definition an_interrupt : list op :=
  [ OCreate 1 None (Fin 0) (Fin 0) false false None; ORun (SDur (Fin 100)) PInf false None;
    OStep; OFromStore 1 [0%nat] (fun _ => true) None (Fin 0) SNone (Fin 0) false None;
    OActivate 1 None (Fin 10) (Fin 0) false false true false None; OInterrupt 1 ].
(** "an interrupted component leaves this status only by a call on it" is false *)
Theorem C80_interrupted_refuted : exists s o s' x, reachable s /\ call s o s' /\ ~ on s o x /\ (forall r, qs s (QClaim r) = []) /\
  c_status (comps s x) = Interrupted /\ c_status (comps s' x) = Scheduled.
Proof.
  exists (stp any env0 an_interrupt), (OEnterStore 5 0 PTail), (fst (exec 9 (OEnterStore 5 0 PTail) (stp any env0 an_interrupt))), 1%nat.
  assert (RE : reachable (stp any env0 an_interrupt)).
  { unfold env0. apply stp_reach; [auto | | vm_compute; reflexivity]. intros r. do 6 eexists. split; [reflexivity | auto]. }
  split; [exact RE|]. split.
  { split; [split; [vm_compute; reflexivity | exact Logic.I]|]. exists 9%nat, (Ok tt). split; [vm_compute; reflexivity | discriminate]. }
  split; [intros []|]. split; [intros r; reflexivity|]. split; vm_compute; reflexivity.
Qed.

(** 1 waits for a state and 2 holds; 2 becomes current and sets the state: 1, not called, goes from Waiting to Scheduled; 3 was passive and stays so *)
Definition a_wait : list op :=
  [ OCreate 1 None (Fin 0) (Fin 0) false false None; OCreate 2 None (Fin 0) (Fin 0) false false None; OCreate 3 None (Fin 0) (Fin 0) false false None;
    ORun (SDur (Fin 100)) PInf false None;
    OStep; OWait 1 [(0%nat, (fun v => v =? 7)%Z, Fin 0)] false SNone (Fin 0) false None; OStep; OHold 2 (SDur (Fin 5)) (Fin 0) false 0 None; OStep; OPassivate 3; OStep ].
Example C80_case : exists s s', reachable s /\ call s (OSet 0 7) s' /\ lined s 1 /\ ~ on s (OSet 0 7) 1 /\
  map (fun c => c_status (comps s c)) [0; 1; 2; 3]%nat = [Scheduled; Waiting; Current; Passive] /\
  map (fun c => c_status (comps s' c)) [0; 1; 2; 3]%nat = [Scheduled; Scheduled; Current; Passive].
Proof.
  exists (stp any env0 a_wait), (fst (exec 9 (OSet 0 7) (stp any env0 a_wait))).
  split.
  { unfold env0. apply stp_reach; [auto | | vm_compute; reflexivity]. intros r. do 6 eexists. split; [reflexivity | auto]. }
  split.
  { split; [split; [vm_compute; reflexivity | exact Logic.I]|]. exists 9%nat, (Ok tt). split; [vm_compute; reflexivity | discriminate]. }
  split; [exists 0%nat; right; left; vm_compute; auto|]. split; [intros []|]. split; vm_compute; reflexivity.
Qed.
Print Assumptions C80_diagram.
Print Assumptions C80_asleep.
Print Assumptions C80_current.
Print Assumptions C80_interrupted_refuted.
