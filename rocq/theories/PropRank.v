(** C78: of priorities only their order matters. *)
From Coq Require Import QArith Lqa List Bool Arith ZArith Lia.
From Verif Require Import Base Kernel Wp KernelPrio PropSched PropCalls.
Import ListNotations.
Open Scope Q_scope.

(** g replaces priorities by others, in the same order; 0, the priority used if none is given, stays 0 *)
Definition keeps_order (g : xq -> xq) : Prop := (forall a b, xlt (g a) (g b) <-> xlt a b) /\ g (Fin 0) = Fin 0.
(** the same call with all priorities replaced; nothing else differs *)
Definition regrade (g : xq -> xq) (o : op) : op :=
  match o with
  | OCreate c a dl p u sk cap => OCreate c a dl (g p) u sk cap
  | OActivate c a dl p u pr kr kw cap => OActivate c a dl (g p) u pr kr kw cap
  | OHold c sp p u i cap => OHold c sp (g p) u i cap
  | OResume c all p u => OResume c all (g p) u
  | ORemaining c v p u => ORemaining c v (g p) u
  | ORequest c a o fl p u cap => ORequest c (map (fun x => (fst x, g (snd x))) a) o fl (g p) u cap
  | OWait c a al fl p u cap => OWait c (map (fun x => (fst x, g (snd x))) a) al fl (g p) u cap
  | OWaitFor c cond sts fl p u cap => OWaitFor c cond sts fl (g p) u cap
  | OFromStore c ks f key rp fl fp u cap => OFromStore c ks f key (g rp) fl (g fp) u cap
  | OToStore c ks i rp p fl fp u cap => OToStore c ks i (g rp) (g p) fl (g fp) u cap
  | OEnterStore i k (PSorted p) => OEnterStore i k (PSorted (g p))
  | ORun sp p u cap => ORun sp (g p) u cap
  | o => o
  end.

Lemma keeps_ltb : forall g, keeps_order g -> forall a b, xltb (g a) (g b) = xltb a b.
Proof. intros g [H _] a b. apply eq_true_iff_eq. rewrite !xltb_iff. apply H. Qed.
Lemma k_exec : forall g, keeps_order g -> forall n o, rel g eq (exec n o) (exec n (regrade g o)).
Proof.
  intros g K n o. pose proof (keeps_ltb g K) as L. destruct K as [_ Z]. destruct o; cbn [exec regrade];
    auto using k_create, k_activate, k_hold, k_passivate, k_interrupt, k_resume, k_cancel, k_standby, k_set_remaining, k_release, k_res_release,
      k_set_cap, k_wait_for, k_st_set, k_st_trigger, k_from_store, k_to_store, k_item_leave, k_st_set_cap, k_rescan, k_set_filter, k_step, k_run, k_reset_now.
  - apply k_request; auto.
  - apply k_wait; auto.
  - destruct w; cbn [exec]; [apply k_item_sorted; auto | | | |]; match goal with |- rel g eq (item_enter n k i ?w) _ => apply (k_item_enter g L Z n k i w) end.
  - apply r_setc. intros x. reflexivity.
  - apply r_setc. intros x. reflexivity.
  - apply (r_bind g _ _ eq eq); [apply r_get; intros s t E; symmetry; apply E | intros ? ? <-]. apply k_terminate; auto.
Qed.
(** Whatever calls are made: with the priorities regraded the same calls succeed and fail, in the same way, and the two simulations stay in step *)
Lemma k_play : forall g, keeps_order g -> forall n l s t, env_prio g s t ->
  snd (play n (map (regrade g) l) t) = snd (play n l s) /\ env_prio g (fst (play n l s)) (fst (play n (map (regrade g) l) t)).
Proof.
  intros g K n l. induction l as [|o l IH]; intros s t E; [cbn; auto|]. cbn [play map].
  pose proof (k_exec g K n o s t E) as X. destruct (exec n o s) as [s1 r], (exec n (regrade g o) t) as [t1 r'].
  assert (Y : env_prio g s1 t1 /\ r' = r) by (destruct r as [[]|], r' as [[]|]; try contradiction; destruct X; subst; auto).
  clear X. destruct Y as [Y ->]. specialize (IH s1 t1 Y). destruct (play n l s1), (play n (map (regrade g) l) t1). cbn in *. destruct IH as [-> IH]. auto.
Qed.
Lemma prio_init : forall g t0 R sv kc hp y dc, g (Fin 0) = Fin 0 -> env_prio g (init t0 R sv kc hp y dc) (init t0 R sv kc hp y dc).
Proof.
  intros g t0 R sv kc hp y dc Z. constructor; cbn; auto. intros c. unfold upd. destruct (Nat.eqb c main); unfold gc; cbn; rewrite Z; reflexivity.
Qed.

(** what a user can see of the two simulations: everything is the same, but for the priorities themselves *)
Definition same_but_priorities (s t : env) : Prop :=
  user_now t = user_now s /\ cur t = cur s /\ stby t = stby s /\ pend t = pend s /\ running t = running s /\
  (forall q, map fst (qs t q) = map fst (qs s q)) /\
  (forall r, rsc t r = rsc s r) /\ (forall x, sval t x = sval s x) /\ (forall k, kcap t k = kcap s k /\ kmav t k = kmav s k) /\
  map (fun e => (e_t e, e_c e)) (evl t) = map (fun e => (e_t e, e_c e)) (evl s) /\
  forall c, let x := comps s c in let y := comps t c in
    c_status y = c_status x /\ user_sched t c = user_sched s c /\ remaining t c = remaining s c /\ c_ilevel y = c_ilevel x /\
    c_requests y = c_requests x /\ c_claims y = c_claims x /\ map fst (c_waits y) = map fst (c_waits x) /\ c_failed y = c_failed x /\
    c_from y = c_from x /\ c_to y = c_to x /\ c_fitem y = c_fitem x /\ c_titem y = c_titem x.
Lemma prio_same : forall g s t, env_prio g s t -> same_but_priorities s t.
Proof.
  intros g s t E. assert (N : now t = now s) by apply E. assert (O : off t = off s) by apply E.
  unfold same_but_priorities, user_now. rewrite N, O. do 5 (split; [try reflexivity; apply E|]).
  split; [apply g_qs with (g := g); auto|]. split; [intros; rewrite (ep_rsc _ _ _ E); auto|]. split; [intros; rewrite (ep_sval _ _ _ E); auto|].
  split; [intros; rewrite (ep_kcap _ _ _ E), (ep_kmav _ _ _ E); auto|].
  split; [rewrite (ep_evl _ _ _ E), map_map; reflexivity|]. intros c. unfold user_sched, remaining. cbv zeta. rewrite (ep_comps _ _ _ E c), N, O. repeat split.
Qed.

(** Any model, started from scratch: with regraded priorities every call has the same outcome, and the simulation is the same *)
Theorem C78_only_order_matters : forall g n l t0 R sv kc hp y dc, keeps_order g ->
  let (s, rs) := play n l (init t0 R sv kc hp y dc) in let (t, rs') := play n (map (regrade g) l) (init t0 R sv kc hp y dc) in
  rs' = rs /\ same_but_priorities s t.
Proof.
  intros g n l t0 R sv kc hp y dc K. pose proof (k_play g K n l _ _ (prio_init g t0 R sv kc hp y dc (proj2 K))) as [A B].
  destruct (play n l _) as [s rs], (play n (map (regrade g) l) _) as [t rs']. cbn [fst snd] in *. split; auto. apply (prio_same g); auto.
Qed.
(** and the next event, at any moment, is that of the same component *)
Theorem C78_next_event : forall g n l t0 R sv kc hp y dc, keeps_order g ->
  let s := fst (play n l (init t0 R sv kc hp y dc)) in let t := fst (play n (map (regrade g) l) (init t0 R sv kc hp y dc)) in
  option_map (fun x => (e_t (fst x), e_c (fst x))) (ev_pop (evl t)) = option_map (fun x => (e_t (fst x), e_c (fst x))) (ev_pop (evl s)).
Proof.
  intros g n l t0 R sv kc hp y dc K s t. pose proof (k_play g K n l _ _ (prio_init g t0 R sv kc hp y dc (proj2 K))) as [_ B]. fold s t in B.
  rewrite (ep_evl _ _ _ B), (ge_pop g (keeps_ltb g K)). destruct (ev_pop (evl s)) as [[e l']|]; reflexivity.
Qed.
(** in particular all priorities may be multiplied by a positive number *)
Definition scaled (k : Q) (p : xq) : xq := match p with Fin a => Fin (Qred (k * a)) | PInf => PInf end.
Theorem C78_scale : forall k, 0 < k -> keeps_order (scaled k).
Proof.
  intros k K. split.
  - intros [a|] [b|]; cbn [scaled xlt]; try tauto. pose proof (Qred_correct (k * a)). pose proof (Qred_correct (k * b)).
    split; intros X; [apply Qnot_le_lt; intros Y; assert (k * b <= k * a) by nra; lra|]. assert (k * a < k * b) by nra. lra.
  - cbn [scaled]. f_equal. apply (Qred_complete (k * 0) 0). lra.
Qed.
(** Adding the same number to all priorities keeps their order as well, but not with respect to 0, which is what a component whose request or wait is
    honored, whose item arrives, ... gets: the outcome may differ.  Here component 2 gets the resource released by 1 at time 5, for which component 3 is scheduled as well *)
Definition shifted (d : Q) (p : xq) : xq := match p with Fin a => Fin (d + a) | PInf => PInf end.
Definition start78 : env := init 0 (fun _ => res0 (Fin 1) 0 false false false false) (fun _ => 0%Z) (fun _ => PInf) (fun _ => true) false false.
Definition model78 : list op :=
  [ OCreate 1 None (Fin 0) (Fin 0) false false None; OCreate 2 None (Fin 0) (Fin 0) false false None; OCreate 3 None (Fin 5) (Fin 2) false false None;
    ORun (SDur (Fin 9)) PInf false None; OStep; ORequest 1 [((0%nat, 1), Fin 0)] false SNone (Fin 0) false None; OStep; OHold 1 (SDur (Fin 5)) (Fin 1) false 0 None;
    OStep; ORequest 2 [((0%nat, 1), Fin 3)] false SNone (Fin 0) false None; OStep; ORelease 1 []; OStep ].
Theorem C78_shift_refuted : exists d l, 0 < d /\ (forall a b, xlt (shifted d a) (shifted d b) <-> xlt a b) /\
  cur (fst (play 19 (map (regrade (shifted d)) l) start78)) <> cur (fst (play 19 l start78)).
Proof.
  exists 1, [ OCreate 1 None (Fin 0) (Fin 0) false false None; OCreate 2 None (Fin 1) (Fin 0) false false None; OCreate 3 None (Fin 5) (Fin 0) false false None;
    ORun (SDur (Fin 9)) PInf false None; OStep; ORequest 1 [((0%nat, 1), Fin 0)] false SNone (Fin 0) false None; OStep; OHold 1 (SDur (Fin 5)) (Fin (-2)) false 0 None;
    OStep; ORequest 2 [((0%nat, 1), Fin 0)] false SNone (Fin 0) false None; OStep; ORelease 1 []; OPassivate 1; OStep ].
  split; [reflexivity|]. split.
  - intros [a|] [b|]; cbn; try tauto; split; intros; lra.
  - vm_compute. discriminate.
Qed.
(** the priorities 0, 1, 2, 3 replaced by 0, 10, 20, 30: 1 is released, 2 gets the resource before 3 *)
Example C78_case : let s := play 19 model78 start78 in let t := play 19 (map (regrade (scaled 10)) model78) start78 in
  Forall (fun r => r = Ok tt) (snd s) /\ snd t = snd s /\ cur (fst s) = 2%nat /\ cur (fst t) = 2%nat /\ qs (fst s) (QClaim 0) = [(2%nat, Fin 3)] /\
  qs (fst t) (QClaim 0) = [(2%nat, Fin 30)] /\ keeps_order (scaled 10).
Proof.
  intros s t. split; [unfold s; vm_compute; repeat constructor|]. do 5 (split; [vm_compute; reflexivity|]). apply C78_scale. reflexivity.
Qed.
Print Assumptions C78_only_order_matters.
Print Assumptions C78_next_event.
Print Assumptions C78_scale.
Print Assumptions C78_shift_refuted.
