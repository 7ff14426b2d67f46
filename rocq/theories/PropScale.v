(** C75: the unit in which times are expressed does not matter. *)
From Coq Require Import QArith Lqa List Bool Arith ZArith Lia.
From Verif Require Import Base Util PropUtil Kernel Wp KernelK PropSched PropCalls.
Import ListNotations.
Open Scope Q_scope.

(** The same call with its times converted; quantities, priorities, capacities are left alone *)
Definition conv (f : Q -> Q) (x : xq) : xq := match x with Fin a => Fin (f a) | PInf => PInf end.
Definition conv_sp (f : Q -> Q) (sp : spec) : spec := match sp with SDur a => SDur (conv f a) | STill a => STill (conv f a) | sp => sp end.
Definition with_times (f : Q -> Q) (o : op) : op :=
  match o with
  | OCreate c a dl p u sk cap => OCreate c (option_map (conv f) a) (conv f dl) p u sk cap
  | OActivate c a dl p u pr kr kw cap => OActivate c (option_map (conv f) a) (conv f dl) p u pr kr kw cap
  | OHold c sp p u i cap => OHold c (conv_sp f sp) p u i cap
  | ORemaining c v p u => ORemaining c (conv f v) p u
  | ORequest c a o fl p u cap => ORequest c a o (conv_sp f fl) p u cap
  | OWait c a al fl p u cap => OWait c a al (conv_sp f fl) p u cap
  | OWaitFor c cond sts fl p u cap => OWaitFor c cond sts (conv_sp f fl) p u cap
  | OFromStore c ks ff key rp fl fp u cap => OFromStore c ks ff key rp (conv_sp f fl) fp u cap
  | OToStore c ks i rp p fl fp u cap => OToStore c ks i rp p (conv_sp f fl) fp u cap
  | OResetNow x => OResetNow (f x)
  | ORun sp p u cap => ORun (conv_sp f sp) p u cap
  | o => o
  end.
(** all times in another unit (hours to minutes: k = 60) *)
Definition times (k : Q) : xq -> xq := conv (fun a => k * a).
Definition in_unit (k : Q) : op -> op := with_times (fun a => k * a).

Section Pair.
Variables (k d : Q) (f g : Q -> Q).
Hypothesis kpos : 0 < k.
Hypothesis fg : forall a, g a == k * f a.
Lemma onto_conv : forall x, onto k 0 (conv f x) (conv g x).
Proof. intros [a|]; cbn; auto. rewrite fg. lra. Qed.
Lemma onto_spec : forall sp, spec_onto k (conv_sp f sp) (conv_sp g sp).
Proof. intros [| | |]; cbn; auto using onto_conv. Qed.
Lemma k_exec2 : forall n o, rel k d eq (exec n (with_times f o)) (exec n (with_times g o)).
Proof.
  intros n o. pose proof onto_conv. pose proof onto_spec. destruct o; cbn [exec with_times];
    auto using k_create, k_activate, k_hold, k_passivate, k_interrupt, k_resume, k_cancel, k_standby, k_set_remaining, k_request, k_release, k_res_release,
      k_set_cap, k_wait, k_wait_for, k_st_set, k_st_trigger, k_from_store, k_to_store, k_item_enter, k_item_leave, k_st_set_cap, k_rescan, k_set_filter, k_step, k_run.
  - apply k_create; auto. destruct at_; cbn [option_map]; auto.
  - apply k_activate; auto. destruct at_; cbn [option_map]; auto.
  - apply r_setc. intros x y []. constructor; cbn; auto.
  - apply r_setc. intros x y []. constructor; cbn; auto.
  - apply k_reset_now; auto.
  - apply (r_bind _ _ _ _ eq eq); [apply r_get; intros s t E; symmetry; apply E | intros ? ? <-]. apply k_terminate; auto.
Qed.
End Pair.
Lemma with_times_id : forall o, with_times (fun a => a) o = o.
Proof.
  assert (X : forall x, conv (fun a => a) x = x) by (intros [a|]; auto).
  assert (S : forall x, conv_sp (fun a => a) x = x) by (intros [| | |]; cbn; auto; rewrite X; auto).
  intros o. destruct o; cbn; rewrite ?X, ?S; auto; destruct at_; cbn; rewrite ?X; auto.
Qed.
Lemma k_exec : forall k d, 0 < k -> forall n o, rel k d eq (exec n o) (exec n (in_unit k o)).
Proof. intros k d kpos n o. rewrite <- (with_times_id o) at 1. apply k_exec2; auto. reflexivity. Qed.
Lemma k_play : forall k d n l l', Forall2 (fun o o' => rel k d eq (exec n o) (exec n o')) l l' -> forall s t, env_onto k d s t ->
  snd (play n l' t) = snd (play n l s) /\ env_onto k d (fst (play n l s)) (fst (play n l' t)).
Proof.
  intros k d n l l' F. induction F as [|o o' l l' H F IH]; intros s t E; [cbn; auto|]. cbn [play].
  pose proof (H s t E) as X. destruct (exec n o s) as [s1 r], (exec n o' t) as [t1 r'].
  assert (Y : env_onto k d s1 t1 /\ r' = r) by (destruct r as [[]|], r' as [[]|]; try contradiction; destruct X; subst; auto).
  clear X. destruct Y as [Y ->]. specialize (IH s1 t1 Y). destruct (play n l s1), (play n l' t1). cbn in *. destruct IH as [-> IH]. auto.
Qed.
Lemma onto_init : forall k t0 t1 R sv kc hp y dc, t1 == k * t0 -> env_onto k 0 (init t0 R sv kc hp y dc) (init t1 R sv kc hp y dc).
Proof.
  intros k t0 t1 R sv kc hp y dc T. constructor; cbn; auto; try lra.
  intros c. unfold upd. destruct (Nat.eqb c main); constructor; cbn; auto; lra.
Qed.

(** Whatever calls are made: if all times given are k times as large, the same calls succeed and fail, in the same way, and the two simulations stay in
    step: the same component is current, the same events are pending in the same order, at times that are k times as large, and all else is the same *)
Theorem C75_unit_of_time : forall k d n l s t, 0 < k -> env_onto k d s t ->
  snd (play n (map (in_unit k) l) t) = snd (play n l s) /\ env_onto k d (fst (play n l s)) (fst (play n (map (in_unit k) l) t)).
Proof.
  intros k d n l s t kpos E. apply k_play; auto. clear E. induction l as [|o l IH]; cbn [map]; constructor; auto. apply k_exec; auto.
Qed.
(** from the start: an environment that starts at k * t0 rather than t0 *)
Theorem C75_from_start : forall k n l t0 R sv kc hp y dc, 0 < k ->
  let s := play n l (init t0 R sv kc hp y dc) in let t := play n (map (in_unit k) l) (init (k * t0) R sv kc hp y dc) in
  snd t = snd s /\ env_onto k 0 (fst s) (fst t).
Proof.
  intros k n l t0 R sv kc hp y dc kpos s t. apply C75_unit_of_time; auto. apply onto_init. reflexivity.
Qed.
(** what is reported to the user: the clock, the time a component is scheduled for and the duration that remains are k times as large,
    whatever the origin of the internal time; statuses, claims, requests and queues are the same *)
Theorem C75_reported : forall k d s t, env_onto k d s t ->
  user_now t == k * user_now s /\ cur t = cur s /\ qs t = qs s /\ rsc t = rsc s /\ sval t = sval s /\
  forall c, c_status (comps t c) = c_status (comps s c) /\ c_claims (comps t c) = c_claims (comps s c) /\ c_failed (comps t c) = c_failed (comps s c) /\
    xeq (user_sched t c) (times k (user_sched s c)) /\ xeq (remaining t c) (times k (remaining s c)).
Proof.
  intros k d s t [N O V CM]. unfold user_now, user_sched, remaining. split; [lra|]. do 4 (split; auto). intros c. destruct (CM c) as [S R ST].
  split; auto. split; auto. split; auto. rewrite ST. split.
  - destruct (c_sched (comps s c)), (c_sched (comps t c)); cbn in *; try contradiction; auto. lra.
  - destruct (c_status (comps s c)); cbn; try lra; try (destruct (c_rem (comps s c)), (c_rem (comps t c)); cbn in *; try contradiction; auto; lra);
      destruct (c_sched (comps s c)), (c_sched (comps t c)); cbn in *; try contradiction; auto; lra.
Qed.
(** The time unit of the environment.  A model whose times are all given with a unit, env.hours(3), env.minutes(20) (14298-14456, [from_unit]), is the same
    model whatever the time_unit of the environment: all outcomes are the same, and all times reported are the same once expressed in some unit
    (to_time_unit, to_hours, ..., 14458-14621). *)
Definition value (r : ures Q) : Q := match r with UOk q => q | UEr _ => 0 end.
(** the call with its times given in unit u, in an environment whose time unit is e *)
Definition given (e : tunit) (uo : tunit * op) : op := with_times (fun a => value (from_unit (tu_lookup (Some e)) (fst uo) a)) (snd uo).
(** the times q and q' are the same, with units e and e' *)
Definition same_time (e e' : tunit) (q q' : xq) : Prop :=
  match q, q' with
  | Fin a, Fin b => forall u, exists x y, to_unit (tu_lookup (Some e)) (Some u) a = UOk x /\ to_unit (tu_lookup (Some e')) (Some u) b = UOk y /\ x == y
  | PInf, PInf => True
  | _, _ => False
  end.
Lemma secs_pos : forall u, 0 < in_seconds u. Proof. destruct u; reflexivity. Qed.
Lemma same_time_k : forall e e' q q', xeq q' (times (in_seconds e / in_seconds e') q) -> same_time e e' q q'.
Proof.
  intros e e' [a|] [b|] H; cbn in H; auto. cbn [same_time]. intros u.
  destruct (C56_to e u a) as (x & X1 & X2), (C56_to e' u b) as (y & Y1 & Y2). exists x, y. split; auto. split; auto.
  rewrite X2, Y2, H. pose proof (secs_pos e'). pose proof (secs_pos u). field. split; intros Z; rewrite Z in *; lra.
Qed.
Theorem C75_time_unit : forall e e' n (l : list (tunit * op)) t0 u0 R sv kc hp y dc,
  let start e := init (value (from_unit (tu_lookup (Some e)) u0 t0)) R sv kc hp y dc in
  let (s, rs) := play n (map (given e) l) (start e) in let (t, rs') := play n (map (given e') l) (start e') in
  rs' = rs /\ same_time e e' (Fin (user_now s)) (Fin (user_now t)) /\ cur t = cur s /\ qs t = qs s /\ rsc t = rsc s /\ sval t = sval s /\
  map e_c (evl t) = map e_c (evl s) /\
  forall c, c_status (comps t c) = c_status (comps s c) /\ c_claims (comps t c) = c_claims (comps s c) /\ c_failed (comps t c) = c_failed (comps s c) /\
    same_time e e' (user_sched s c) (user_sched t c) /\ same_time e e' (remaining s c) (remaining t c).
Proof.
  intros e e' n l t0 u0 R sv kc hp y dc start. set (k := in_seconds e / in_seconds e').
  assert (kpos : 0 < k) by (unfold k; apply Qlt_shift_div_l; [apply secs_pos | pose proof (secs_pos e); lra]).
  assert (V : forall u a, value (from_unit (tu_lookup (Some e')) u a) == k * value (from_unit (tu_lookup (Some e)) u a)).
  { intros u a. destruct (C56_from e u a) as (x & X1 & X2), (C56_from e' u a) as (z & Z1 & Z2). rewrite X1, Z1. cbn [value]. rewrite X2, Z2. unfold k.
    pose proof (secs_pos e'). pose proof (secs_pos e). field. split; intros Z; rewrite Z in *; lra. }
  destruct (k_play k 0 n (map (given e) l) (map (given e') l)) with (s := start e) (t := start e') as [P E].
  - induction l as [|[u o] l IH]; cbn [map]; constructor; auto. unfold given. cbn [fst snd]. apply k_exec2; auto.
  - unfold start. apply onto_init, V.
  - destruct (play n (map (given e) l) (start e)) as [s rs], (play n (map (given e') l) (start e')) as [t rs']. cbn [fst snd] in *.
    split; auto. destruct (C75_reported _ _ _ _ E) as (N & C & QS & RS & SV & CM).
    split; [apply same_time_k; exact N|]. do 4 (split; auto). split.
    + pose proof (eo_evl _ _ _ _ E) as F. clear - F. induction F as [|a b x y (_ & _ & _ & A) F IH]; cbn; congruence.
    + intros c. destruct (CM c) as (A1 & A2 & A3 & A4 & A5). do 3 (split; auto). split; apply same_time_k; auto.
Qed.
(** Two components, one activated after 2 hours and one after 90 minutes, one of which then holds for half an hour: with hours as time unit and with minutes.
    Both go through the same calls; the clock shows 3/2 and 90 *)
Definition model75 : list (tunit * op) :=
  [ (Hours, OCreate 1 None (Fin 2) (Fin 0) false false None); (Minutes, OCreate 2 None (Fin 90) (Fin 0) false false None);
    (Days, ORun (SDur (Fin 1)) PInf false None); (Hours, OStep); (Minutes, OHold 2 (SDur (Fin 30)) (Fin 0) true 0 None); (Hours, OHold 2 (STill (Fin 1)) (Fin 0) false 0 None) ].
Definition start75 (e : tunit) : env :=
  init (value (from_unit (tu_lookup (Some e)) Hours 0)) (fun _ => res0 (Fin 3) 0 false false false false) (fun _ => 0%Z) (fun _ => PInf) (fun _ => true) false false.
Example C75_case : let h := play 19 (map (given Hours) model75) (start75 Hours) in let m := play 19 (map (given Minutes) model75) (start75 Minutes) in
  snd h = [Ok tt; Ok tt; Ok tt; Ok tt; Ok tt; Er ValueErr] /\ snd m = snd h /\ cur (fst h) = 2%nat /\ cur (fst m) = 2%nat /\
  Qred (user_now (fst h)) = 3 # 2 /\ Qred (user_now (fst m)) = 90 /\ in_unit 60 (OHold 2 (SDur (Fin 2)) (Fin 0) false 0 None) = OHold 2 (SDur (Fin (60 * 2))) (Fin 0) false 0 None.
Proof. intros h m. do 6 (split; [vm_compute; reflexivity|]). vm_compute; reflexivity. Qed.
Print Assumptions C75_unit_of_time.
Print Assumptions C75_from_start.
Print Assumptions C75_reported.
Print Assumptions C75_time_unit.
