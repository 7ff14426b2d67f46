(** C76: parts of a model that share nothing do not affect each other. *)
From Coq Require Import QArith Lqa List Bool Arith ZArith Lia.
From Verif Require Import Base Kernel Wp KernelX KernelPart PropSched PropCalls.
Import ListNotations.
Open Scope Q_scope.

Section Apart.
(** our part of the model: components (main is ours), resources, states, stores *)
Variables (P PR PS PK : nat -> bool).
Hypothesis Pmain : P main = true.

(** the part a call is about, by the component, resource, state or store that is called; run and reset_now are ours *)
Definition about (o : op) : bool :=
  match o with
  | OCreate c _ _ _ _ _ _ | OActivate c _ _ _ _ _ _ _ _ | OHold c _ _ _ _ _ | OPassivate c | OInterrupt c | OResume c _ _ _ | OCancel c | OStandby c
  | ORemaining c _ _ _ | ORequest c _ _ _ _ _ _ | ORelease c _ | OWait c _ _ _ _ _ _ | OWaitFor c _ _ _ _ _ _ | OFromStore c _ _ _ _ _ _ _ _
  | OToStore c _ _ _ _ _ _ _ _ | OEnterStore c _ _ | OFilter c _ | OTouch c _ | OSkip c _ => P c
  | OResRelease r _ | OSetCap r _ => PR r
  | OSet st _ | OTrigger st _ _ _ => PS st
  | OLeaveStore _ x | OStoreCap x _ | ORescan x => PK x
  | OResetNow _ | OStep | OEnd | ORun _ _ _ _ => true
  end.
(** all that is mentioned in the call is of part [b]; standby is left out: a standby component becomes current after every event, also those of others *)
Definition within (b : bool) (o : op) : Prop :=
  match o with
  | ORequest _ a _ _ _ _ _ => forall x, In x a -> PR (fst (fst x)) = b
  | ORelease _ a => forall x, In x a -> PR (fst x) = b
  | OWait _ a _ _ _ _ _ => forall x, In x a -> PS (fst (fst x)) = b
  | OWaitFor _ cond a _ _ _ _ => (forall x, In x a -> PS x = b) /\ forall u v, (forall st, PS st = b -> u st = v st) -> cond u = cond v
  | OFromStore _ xs _ _ _ _ _ _ _ => forall x, In x xs -> PK x = b
  | OToStore _ xs i _ _ _ _ _ _ => P i = b /\ forall x, In x xs -> PK x = b
  | OEnterStore _ x _ => PK x = b
  | OStandby _ => False
  | _ => True
  end.
(** whether a call made in state s is ours: a step is ours if the event that is next is ours, the end of a process if its component is *)
Definition ours (s : env) (o : op) : bool :=
  match o with
  | OStep => match ev_pop (evl s) with Some (e, _) => P (e_c e) | None => true end
  | OEnd => P (cur s)
  | o => about o
  end.
(** the two parts are separate: every call stays within a part, and calls on our part are made when main or one of our components is current; no step is
    made with an empty event list *)
Fixpoint separate (n : nat) (l : list op) (s : env) : Prop :=
  match l with
  | [] => True
  | o :: t =>
    match o with
    | OStep => evl s <> []
    | OEnd => True
    | o => within (about o) o /\ (about o = true -> P (cur s) = true)
    end /\ separate n t (fst (exec n o s))
  end.
(** our calls in a run of the whole model, with their outcomes *)
Fixpoint our_calls (n : nat) (l : list op) (s : env) : list (op * result unit) :=
  match l with
  | [] => []
  | o :: t => let (s1, r) := exec n o s in if ours s o then (o, r) :: our_calls n t s1 else our_calls n t s1
  end.

Let parts := parts P PR PS PK.
Let side := side P PR PS PK.
Let at_ b {A} := @at_ P PR PS PK b A.
Lemma n_exec : forall n o, o <> OStep -> o <> OEnd -> within (about o) o -> at_ (about o) any (exec n o).
Proof.
  intros n o N1 N2 W. unfold at_. destruct o; cbn [exec about within] in *; try congruence;
    first [apply n_create | apply n_activate | apply n_hold | apply n_passivate | apply n_interrupt | apply n_resume | apply n_cancel | apply n_set_remaining
      | apply n_request | apply n_release | apply n_res_release | apply n_set_cap | apply n_wait | apply n_wait_for | apply n_st_set | apply n_st_trigger | apply n_from_store
      | apply n_to_store | apply n_item_enter | apply n_item_leave | apply n_st_set_cap | apply n_rescan | apply n_set_filter | apply n_reset_now | apply n_run | idtac]; auto; try tauto.
  - apply n_setc; auto. intros x []. constructor; cbn; auto.
  - apply n_setc; auto. intros x []. constructor; cbn; auto.
Qed.

(** ** the step *)
Definition after (s : env) (e : ev) (l : list ev) : env :=
  m_comp (e_c e) (w_sched PInf) (m_comp (e_c e) (w_status Current) (s_cur (e_c e) (s_now (e_t e) (m_comp (e_c e) (w_onev false) (s_evl l s))))).
Definition rest (n : nat) (c : nat) : M unit := if Nat.eqb c main then put (s_running false) else check_fail c ;;; continue n c.
Lemma step_after : forall n s e l, stby s = [] -> pend s = [] -> ev_pop (evl s) = Some (e, l) -> step n s = rest n (e_c e) (after s e l).
Proof.
  intros n s e l E1 E2 E3. unfold step. unfold bind at 1. unfold get at 1. unfold bind at 1. unfold get at 1. unfold bind at 1. unfold get at 1. rewrite E2.
  destruct (c_skip (comps s (cur s))); unfold step_event, bind, get, put, setc, when, nonnil, ret; cbn [fst snd]; rewrite E1, E3; reflexivity.
Qed.
Lemma le_anti : forall a b, ev_le a b -> ev_le b a -> e_seq a = e_seq b.
Proof.
  intros a b [A|(A & [B|(B & B1)])] [C|(C & [D|(D & D1)])]; try lra.
  - exfalso. revert B D. destruct (e_prio a), (e_prio b); cbn; intros; try tauto; try lra.
  - exfalso. revert B D. destruct (e_prio a), (e_prio b); cbn; intros; try tauto; try lra.
  - exfalso. revert B D. destruct (e_prio a), (e_prio b); cbn; intros; try tauto; try lra.
  - lia.
Qed.
Lemma NoDup_same : forall A B (f : A -> B) l x y, NoDup (map f l) -> In x l -> In y l -> f x = f y -> x = y.
Proof.
  induction l as [|a l IH]; cbn; intros x y N X Y E; [tauto|]. inversion N as [|? ? N1 N2]; subst. destruct X as [->|X], Y as [->|Y]; auto.
  - exfalso. apply N1. rewrite E. apply in_map; auto.
  - exfalso. apply N1. rewrite <- E. apply in_map; auto.
Qed.
Lemma pop_spec : forall l e l', ev_pop l = Some (e, l') -> In e l /\ (forall x, In x l -> ev_le e x) /\ l' = ev_del_seq (e_seq e) l.
Proof.
  intros [|x t] e l' H; [discriminate|]. unfold ev_pop in H. destruct (ev_min_spec t x) as (A & B & C).
  remember (ev_min x t) as m. injection H as <- <-. split; [destruct A; [left|right]; auto|]. split; auto. intros y [<-|I]; auto.
Qed.
Lemma filter_comm : forall A (f g : A -> bool) l, filter f (filter g l) = filter g (filter f l).
Proof. induction l as [|a l IH]; cbn; auto. destruct (g a) eqn:G, (f a) eqn:F; cbn; rewrite ?G, ?F, ?IH; auto. Qed.
Lemma filter_same : forall A (f g : A -> bool) l, (forall x, In x l -> f x = g x) -> filter f l = filter g l.
Proof. induction l as [|a l IH]; cbn; intros H; auto. rewrite (H a), IH; auto. Qed.
Lemma NoDup_del : forall n l, NoDup (map e_seq l) -> NoDup (map e_seq (ev_del_seq n l)).
Proof.
  intros n. unfold ev_del_seq. induction l as [|a l IH]; cbn; intros N; auto. inversion N; subst. destruct (negb (e_seq a =? n)%Z); cbn; auto. constructor; auto.
  intros I. apply H1. rewrite in_map_iff in *. destruct I as (y & E & I). apply filter_In in I. exists y. tauto.
Qed.
Lemma in_del : forall n e l, In e (ev_del_seq n l) -> In e l.
Proof. intros n e l H. apply filter_In in H. tauto. Qed.

(** an event of the others: nothing happens to ours *)
Lemma after_other : forall s t e l, parts s t -> ev_pop (evl s) = Some (e, l) -> P (e_c e) = false -> parts (after s e l) t.
Proof.
  intros s t e l H E Pe. destruct (pop_spec _ _ _ E) as (I & Mi & ->). destruct H.
  assert (N : forall c, P c = true -> c <> e_c e) by congruence.
  constructor; auto.
  - intros c Pc. rewrite pt_comps by auto. unfold after. cbn. unfold upd. destruct (Nat.eqb_spec c (e_c e)) as [->|]; auto. congruence.
  - intros c. unfold after. cbn. unfold upd. destruct (Nat.eqb_spec c (e_c e)) as [->|]; auto. rewrite Nat.eqb_refl. destruct (pt_in (e_c e)). constructor; cbn; auto.
  - destruct pt_evs as (L & [L1 L2 L3 L4 L5]). exists L. constructor; auto. cbn. unfold ev_del_seq. rewrite filter_comm.
    rewrite <- L1. rewrite (filter_same _ _ (fun _ => true)).
    + clear. induction (filter (mine P) (evl s)); cbn; congruence.
    + intros x X. apply filter_In in X. destruct X as (X1 & X2). destruct (Z.eqb_spec (e_seq x) (e_seq e)) as [X3|]; auto.
      exfalso. assert (x = e) by (eapply NoDup_same with (f := e_seq); eauto). subst. unfold mine in X2. congruence.
  - cbn. apply NoDup_del; auto.
  - cbn. intros x X. apply pt_bound. eapply in_del; eauto.
  - cbn. congruence.
Qed.
(** one of our events: it is also the next one in our part alone *)
Lemma after_mine : forall s t e l, parts s t -> ev_pop (evl s) = Some (e, l) -> P (e_c e) = true ->
  exists e' l', ev_pop (evl t) = Some (e', l') /\ e_c e' = e_c e /\ side true (after s e l) (after t e' l').
Proof.
  intros s t e l H E Pe. destruct (pop_spec _ _ _ E) as (I & Mi & ->). destruct H. destruct pt_evs as (L & [L1 L2 L3 L4 L5]).
  assert (I1 : In e (map fst L)) by (rewrite <- L1; apply filter_In; auto).
  apply in_map_iff in I1. destruct I1 as ((e1 & e2) & E1 & I1). cbn in E1. subst e1.
  destruct (ev_pop (evl t)) as [(e', l')|] eqn:E'.
  2:{ rewrite L2 in E'. destruct L; [destruct I1 | discriminate]. }
  destruct (pop_spec _ _ _ E') as (I' & Mi' & ->).
  rewrite L2 in I'. apply in_map_iff in I'. destruct I' as ((m1 & m2) & E2 & I2). cbn in E2. subst m2.
  assert (Im1 : In m1 (evl s)). { assert (X : In m1 (map fst L)) by (apply in_map_iff; exists (m1, e'); auto). rewrite <- L1 in X. apply filter_In in X. tauto. }
  assert (Ie2 : In e2 (evl t)) by (rewrite L2; apply in_map_iff; exists (e, e2); auto).
  assert (Q : m1 = e).
  { apply (NoDup_same _ _ e_seq (evl s)); auto. apply le_anti; [|apply Mi; auto].
    pose proof (Mi' e2 Ie2) as X. destruct (L3 _ I1) as (A1 & A2 & _), (L3 _ I2) as (B1 & B2 & _). cbn in A1, A2, B1, B2.
    pose proof (L4 _ _ I1 I2) as O1. cbn in O1. unfold ev_le in *. rewrite A1, A2, B1, B2 in X. destruct X as [X|(X & [Y|(Y & Z1)])]; auto.
    right. split; auto. right. split; auto. lia. }
  subst m1.
  assert (F : forall p, In p L -> (e_seq (fst p) =? e_seq e)%Z = (e_seq (snd p) =? e_seq e')%Z).
  { intros p Ip. pose proof (L4 _ _ Ip I2) as O1. pose proof (L4 _ _ I2 Ip) as O2. cbn in O1, O2.
    destruct (Z.eqb_spec (e_seq (fst p)) (e_seq e)), (Z.eqb_spec (e_seq (snd p)) (e_seq e')); auto; lia. }
  destruct (L3 _ I2) as (A1 & A2 & A3). cbn in A1, A2, A3.
  exists e', (ev_del_seq (e_seq e') (evl t)). split; auto. split; auto.
  split; [|intros _; exact Pe]. constructor; auto; try exact (conj A3 A1).
  - intros c Pc. unfold after. cbn. rewrite A3. unfold upd. rewrite Nat.eqb_refl. destruct (Nat.eqb_spec c (e_c e)) as [->|]; auto. rewrite pt_comps; auto.
  - intros c. unfold after. cbn. unfold upd. destruct (Nat.eqb_spec c (e_c e)) as [->|]; auto. rewrite Nat.eqb_refl. destruct (pt_in (e_c e)). constructor; cbn; auto.
  - exists (filter (fun p => negb (e_seq (fst p) =? e_seq e)%Z) L). constructor.
    + cbn. unfold ev_del_seq. rewrite filter_comm, L1. clear. induction L as [|p L IH]; cbn; auto. destruct (negb (e_seq (fst p) =? e_seq e)%Z); cbn; congruence.
    + cbn. unfold ev_del_seq. rewrite L2. clear - F. induction L as [|p L IH]; cbn; auto. rewrite (F p) by (left; auto).
      rewrite IH by (intros; apply F; right; auto). destruct (negb (e_seq (snd p) =? e_seq e')%Z); reflexivity.
    + intros p X. apply filter_In in X. apply L3; tauto.
    + intros p q X Y. apply filter_In in X, Y. apply L4; tauto.
    + intros p X. apply filter_In in X. cbn. apply L5; tauto.
  - cbn. apply NoDup_del; auto.
  - cbn. intros x X. apply pt_bound. eapply in_del; eauto.
Qed.
Lemma n_rest : forall n c b, P c = b -> at_ b any (rest n c).
Proof.
  intros n c b Pc. unfold rest. destruct (Nat.eqb_spec c main) as [->|].
  - rewrite Pmain in Pc. subst b. apply n_put. intros s t [[] C]. split; [|exact C]. constructor; auto. destruct pt_evs as (L & HL). exists L. eapply paired_eq; eauto.
  - apply (n_bind _ _ _ _ _ _ _ any); [apply n_check_fail; auto|]. intros _ _. apply n_continue; auto.
Qed.
Lemma n_step : forall n s t, parts s t -> evl s <> [] ->
  if ours s OStep then parts (fst (step n s)) (fst (step n t)) /\ snd (step n t) = snd (step n s) else parts (fst (step n s)) t.
Proof.
  intros n s t H N. destruct (ev_pop (evl s)) as [(e, l)|] eqn:E; [|destruct (evl s); [congruence|discriminate]].
  unfold ours. rewrite E. destruct (pt_stby _ _ _ _ _ _ H) as (S1 & S2 & S3 & S4). rewrite (step_after n s e l) by auto.
  destruct (P (e_c e)) eqn:Pe.
  - destruct (after_mine s t e l H E Pe) as (e' & l' & E' & Ec & Sd). rewrite (step_after n t e' l'), Ec by auto.
    destruct (n_rest n (e_c e) true Pe _ _ Sd) as [_ [[X _] Y]]. auto.
  - assert (Sd : side false (after s e l) t) by (split; [apply after_other; auto | discriminate]).
    destruct (n_rest n (e_c e) false Pe _ _ Sd) as [_ [X _]]. exact X.
Qed.
Lemma n_play : forall n l s t, parts s t -> separate n l s ->
  parts (fst (play n l s)) (fst (play n (map fst (our_calls n l s)) t)) /\ snd (play n (map fst (our_calls n l s)) t) = map snd (our_calls n l s).
Proof.
  intros n. induction l as [|o l IH]; intros s t H W; [cbn; auto|]. cbn [separate] in W. destruct W as [W1 W2]. cbn [play our_calls].
  assert (X : if ours s o then parts (fst (exec n o s)) (fst (exec n o t)) /\ snd (exec n o t) = snd (exec n o s) else parts (fst (exec n o s)) t).
  { assert (D : o = OStep \/ o = OEnd \/ (o <> OStep /\ o <> OEnd)) by (destruct o; auto; right; right; split; discriminate).
    destruct D as [->|[->|[D1 D2]]].
    - apply n_step; auto.
    - cbn [ours exec]. unfold bind, get. destruct (P (cur s)) eqn:Pc.
      + destruct (pt_cur _ _ _ _ _ _ H Pc) as [-> _]. destruct (n_terminate P PR PS PK Pmain true n (cur s) Pc s t) as [_ [[X _] Y]]; auto. split; auto.
      + destruct (n_terminate P PR PS PK Pmain false n (cur s) Pc s t) as [_ [X _]]; [split; auto; discriminate|]. exact X.
    - assert (W : within (about o) o /\ (about o = true -> P (cur s) = true)) by (destruct o; auto; congruence).
      replace (ours s o) with (about o) by (destruct o; auto; congruence).
      destruct W as [V1 V2]. pose proof (n_exec n o D1 D2 V1 s t) as Y. destruct (about o).
      + destruct Y as [_ [[Y _] Y1]]; [split; auto|]. auto.
      + destruct Y as [_ [Y _]]; [split; auto|]. auto. }
  destruct (exec n o s) as [s1 r]. cbn [fst snd] in X, W2. destruct (ours s o).
  - destruct X as [X1 X2]. cbn [map fst snd play]. destruct (exec n o t) as [t1 r']. cbn [fst snd] in X1, X2. subst r'. destruct (IH s1 t1 X1 W2) as [Y1 Y2].
    destruct (play n l s1). destruct (play n (map fst (our_calls n l s1)) t1). cbn in *. split; auto. congruence.
  - destruct (IH s1 t X W2) as [Y1 Y2]. destruct (play n l s1). auto.
Qed.

(** ** C76: the calls of our part have the outcomes they have in a model of our part alone, and leave it in the same state *)
(** the events of components that are ours, as (time, priority, component) in the order in which they are in the event list *)
Definition our_events (s : env) : list (Q * xq * nat) := map (fun e => (e_t e, e_prio e, e_c e)) (filter (fun e => P (e_c e)) (evl s)).
Record same_part (s t : env) : Prop := {
  same_comps : forall c, P c = true -> comps t c = comps s c;
  same_resources : forall r, PR r = true -> rsc t r = rsc s r /\ qs t (QReq r) = qs s (QReq r) /\ qs t (QClaim r) = qs s (QClaim r);
  same_states : forall x, PS x = true -> sval t x = sval s x /\ qs t (QWait x) = qs s (QWait x);
  same_stores : forall x, PK x = true -> kcap t x = kcap s x /\ kmav t x = kmav s x /\ qs t (QStore x) = qs s (QStore x) /\
                          qs t (QFrom x) = qs s (QFrom x) /\ qs t (QTo x) = qs s (QTo x);
  same_events : our_events t = our_events s /\ forall e, In e (evl t) -> P (e_c e) = true;
  same_clock : P (cur s) = true -> cur t = cur s /\ now t = now s }.
Lemma parts_same : forall s t, parts s t -> same_part s t.
Proof.
  intros s t []. constructor; auto.
  - intros x Px. rewrite !pt_qs by auto. repeat split; auto.
  - destruct pt_evs as (L & [L1 L2 L3 L4 L5]).
    assert (A : forall e, In e (evl t) -> P (e_c e) = true).
    { intros e I. rewrite L2 in I. apply in_map_iff in I. destruct I as (p & <- & I). destruct (L3 _ I) as (_ & _ & ->).
      assert (X : In (fst p) (filter (mine P) (evl s))) by (rewrite L1; apply in_map; auto). apply filter_In in X. apply X. }
    split; auto. unfold our_events. rewrite (filter_same _ (fun e => P (e_c e)) (fun _ => true) (evl t)) by auto.
    replace (filter (fun _ => true) (evl t)) with (evl t) by (clear; induction (evl t); cbn; congruence).
    change (fun e : ev => P (e_c e)) with (mine P). rewrite L1, L2, !map_map. apply map_ext_in. intros p I. destruct (L3 _ I) as (-> & -> & ->). auto.
Qed.
Lemma parts_init : forall t0 R R' sv sv' kc kc' hp hp' y d, (forall r, PR r = true -> R' r = R r) -> (forall x, PS x = true -> sv' x = sv x) ->
  (forall x, PK x = true -> kc' x = kc x) -> (forall c, P c = true -> hp' c = hp c) -> parts (init t0 R sv kc hp y d) (init t0 R' sv' kc' hp' y d).
Proof.
  intros t0 R R' sv sv' kc kc' hp hp' y d E1 E2 E3 E4. constructor; cbn; auto; try lia; try tauto.
  - intros c Pc. unfold upd. destruct (Nat.eqb c main); rewrite E4; auto.
  - intros c. unfold upd. destruct (Nat.eqb c main); constructor; cbn; try tauto; discriminate.
  - exists []. constructor; cbn; auto; try tauto.
  - constructor.
Qed.
Theorem C76_parts_independent : forall n l t0 R R' sv sv' kc kc' hp hp' y d,
  (forall r, PR r = true -> R' r = R r) -> (forall x, PS x = true -> sv' x = sv x) -> (forall x, PK x = true -> kc' x = kc x) ->
  (forall c, P c = true -> hp' c = hp c) ->
  let whole := init t0 R sv kc hp y d in
  let alone := init t0 R' sv' kc' hp' y d in
  separate n l whole ->
  same_part (fst (play n l whole)) (fst (play n (map fst (our_calls n l whole)) alone)) /\
  snd (play n (map fst (our_calls n l whole)) alone) = map snd (our_calls n l whole).
Proof.
  intros n l t0 R R' sv sv' kc kc' hp hp' y d E1 E2 E3 E4 whole alone W.
  destruct (n_play n l whole alone) as [A B]; auto; [apply parts_init; auto|]. split; auto. apply parts_same; auto.
Qed.
(** whatever the others do, and whatever their resources, states and stores: two models in which the same calls are made on our part give the same
    outcomes, the same queues, claims, statuses and times for everything of ours, and the same time whenever one of ours is current in both *)
Theorem C76_whatever_the_others_do : forall n l l' t0 R R' sv sv' kc kc' hp hp' y d,
  (forall r, PR r = true -> R' r = R r) -> (forall x, PS x = true -> sv' x = sv x) -> (forall x, PK x = true -> kc' x = kc x) ->
  (forall c, P c = true -> hp' c = hp c) ->
  let s := init t0 R sv kc hp y d in
  let t := init t0 R' sv' kc' hp' y d in
  separate n l s -> separate n l' t -> map fst (our_calls n l s) = map fst (our_calls n l' t) ->
  map snd (our_calls n l s) = map snd (our_calls n l' t) /\
  let s' := fst (play n l s) in
  let t' := fst (play n l' t) in
  (forall c, P c = true -> comps t' c = comps s' c) /\
  (forall r, PR r = true -> rsc t' r = rsc s' r /\ qs t' (QReq r) = qs s' (QReq r) /\ qs t' (QClaim r) = qs s' (QClaim r)) /\
  (forall x, PS x = true -> sval t' x = sval s' x /\ qs t' (QWait x) = qs s' (QWait x)) /\
  (forall x, PK x = true -> qs t' (QStore x) = qs s' (QStore x) /\ qs t' (QFrom x) = qs s' (QFrom x) /\ qs t' (QTo x) = qs s' (QTo x)) /\
  our_events t' = our_events s' /\
  (P (cur s') = true -> P (cur t') = true -> cur t' = cur s' /\ now t' = now s').
Proof.
  intros n l l' t0 R R' sv sv' kc kc' hp hp' y d E1 E2 E3 E4 s t W W' E.
  destruct (C76_parts_independent n l t0 R R sv sv kc kc hp hp y d) as [A1 A2]; auto.
  destruct (C76_parts_independent n l' t0 R' R sv' sv kc' kc hp' hp y d) as [B1 B2]; auto.
  1,2,3,4: intros; symmetry; auto.
  fold s in A1, A2. fold t in B1, B2. fold s in B1, B2. rewrite <- E in B1, B2. split; [congruence|].
  cbv zeta. destruct A1 as [a1 a2 a3 a4 a5 a6], B1 as [b1 b2 b3 b4 b5 b6].
  split; [intros c Pc; rewrite <- a1, <- b1; auto|].
  split; [intros c Pc; destruct (a2 c Pc) as (<- & <- & <-), (b2 c Pc) as (<- & <- & <-); auto|].
  split; [intros c Pc; destruct (a3 c Pc) as (<- & <-), (b3 c Pc) as (<- & <-); auto|].
  split; [intros c Pc; destruct (a4 c Pc) as (_ & _ & <- & <- & <-), (b4 c Pc) as (_ & _ & <- & <- & <-); auto|].
  split; [destruct a5 as (<- & _), b5 as (<- & _); auto|].
  intros p1 p2. destruct (a6 p1) as [<- <-], (b6 p2) as [<- <-]. auto.
Qed.
End Apart.

(** two customers, each with its own server, in one model; ours is component 1 with resource 0. The other one is served at times in between, with another
    priority, and is interrupted half-way; for component 1 all is as if it were alone. *)
Definition mine1 (c : nat) : bool := Nat.eqb c 0 || Nat.eqb c 1.
Definition server0 (r : nat) : bool := Nat.eqb r 0.
Definition both_servers : list op :=
  [ OCreate 1 None (Fin 2) (Fin 0) false false None; OCreate 2 None (Fin 1) (Fin 0) true false None; ORun (SDur (Fin 100)) PInf false None;
    OStep; ORequest 2 [((1%nat, 1), Fin 0)] false SNone (Fin 0) false None; OHold 2 (SDur (Fin 4)) (Fin (-(1))) false 0 None;
    OStep; ORequest 1 [((0%nat, 2), Fin 0)] false SNone (Fin 0) false None; OInterrupt 2; OHold 1 (SDur (Fin 7)) (Fin 0) false 0 None; OResume 2 false (Fin 0) false;
    OStep; ORelease 2 []; OEnd; OStep; ORelease 1 [] ].
Example C76_case :
  separate mine1 server0 server0 server0 9 both_servers env0 /\
  map fst (our_calls mine1 server0 server0 server0 9 both_servers env0) =
    [ OCreate 1 None (Fin 2) (Fin 0) false false None; ORun (SDur (Fin 100)) PInf false None;
      OStep; ORequest 1 [((0%nat, 2), Fin 0)] false SNone (Fin 0) false None; OHold 1 (SDur (Fin 7)) (Fin 0) false 0 None;
      OStep; ORelease 1 [] ] /\
  (let s := fst (play 9 both_servers env0) in cur s = 1%nat /\ Qred (now s) = 9) /\
  (let s := fst (play 9 (firstn 14 both_servers) env0) in cur s = 2%nat /\ Qred (now s) = 5 /\ c_claims (comps s 1%nat) = [(0%nat, 2)]).
Proof.
  split; [|split; [vm_compute; reflexivity|split; [vm_compute; auto | vm_compute; auto]]].
  unfold both_servers.
  cbn [separate].
  repeat match goal with
  | |- (within _ _ _ _ _ _ /\ _) => split; [cbn; intros; repeat match goal with H : _ \/ _ |- _ => destruct H | H : False |- _ => destruct H end; subst; auto | vm_compute; auto]
  | |- evl _ <> [] => vm_compute; discriminate
  | |- True => exact Logic.I
  | |- _ /\ _ => split
  end.
Qed.
Print Assumptions C76_parts_independent.
Print Assumptions C76_whatever_the_others_do.
