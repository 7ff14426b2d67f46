(** Property C58: the monitor of something that the scheduler keeps (the status of a component, the value of a state, the length of a queue, a claimed quantity) follows it.
    Here the model of the scheduler (Kernel.v) and the model of monitors (Mon.v) come together. *)
From Coq Require Import QArith Lqa List Bool Arith ZArith Lia.
From Verif Require Import Base Kernel Wp KernelE KernelL KernelX KernelT PropSched Util Mon MonSpec MonP MonQ PropMon.
Import ListNotations.
Open Scope Q_scope.

(** *** how the code keeps a monitor up to date
    Whenever the observed value changes, the code tallies it: status._value = ... (_StatusMonitor 3362-3364: tally) at every place where a component gets a status;
    State.set 23774, State.__init__ 23623; Queue._length_tally 5692-ish; Resource._claimed_quantity.tally in claim / release.
    These happen at the time of the environment (env._now), and within a call the clock moves only before the first of them (step: 11135-11248 sets _now right after popping the event).
    So during one call any number of values [xs] are tallied, all at the new time, and the last of them is the value afterwards (no change: the list may be empty). *)
Fixpoint feed (xs : list val) (v : menv) (m : mon) : mon * mres unit :=
  match xs with [] => (m, Mok tt) | x :: r => match tally x 1 v m with (m1, Mok _) => feed r v m1 | e => e end end.
Definition clock_of (v : menv) (s s' : env) : menv := mkMenv (v_now v + (now s' - now s)) (off s').

Section Watch.
Context {A : Type}.
Variable obs : env -> A.
Variable code : A -> val.

(** [s] is the present state, [hs] all states between calls since the monitor was made (the present one first) *)
Inductive watch : menv -> env -> mon -> list env -> Prop :=
| wa_new : forall s v m r, started s -> v_now v == now s -> v_off v == off s -> create true TAny false true (code (obs s)) v = (m, r) -> watch v s m [s]
| wa_call : forall v s m hs n o s' r xs m' r', watch v s m hs -> exec n o s = (s', r) -> last xs (obs s) = obs s' ->
    feed (map code xs) (clock_of v s s') m = (m', r') -> watch (clock_of v s s') s' m' (s' :: hs).
(** the state at (internal) time t: the last one at or before t *)
Definition state_at (hs : list env) (t : Q) : option env := find (fun s => Qle_bool (now s) t) hs.
(** the time spent in states, each weighted with g *)
Fixpoint spent (g : env -> Q) (hs : list env) (until : Q) : Q := match hs with [] => 0 | s :: r => g s * (until - now s) + spent g r (now s) end.

Hypothesis code_ok : forall a, code a <> NegInf.

Lemma level_at_cons : forall t T x h, on_of h = true -> level_at ((T, HTally x 1) :: h) t = if Qle_bool T t then Some x else level_at h t.
Proof. intros t T x h O. cbn [level_at on_of value_of starts]. rewrite O. destruct (Qle_bool T t); auto. Qed.
Lemma veqb_off : forall a m, m_type m = TAny -> veqb (code a) (m_off m) = false.
Proof. intros a m T. unfold m_off. rewrite T. pose proof (code_ok a). destruct (code a); cbn; auto. congruence. Qed.

(** a tally of such a value into such a monitor succeeds *)
Lemma tally_good : forall v m h a, Minv v m h -> m_stats m = false -> m_level m = true -> m_type m = TAny -> on_of h = true ->
  exists m', tally (code a) 1 v m = (m', Mok tt) /\ m_stats m' = false /\ m_level m' = true /\ m_type m' = TAny.
Proof.
  intros v m h a I ST LV TY ON. destruct I as [GEN ONE VAL OK NE TI START LEV PLA STA]. unfold tally. rewrite GEN, ST.
  cbn [set_cache m_level m_off m_type m_on m_e]. rewrite LV. cbn [negb Qeq_bool]. change (Qeq_bool 1 1) with true. cbn [negb].
  assert (V : veqb (code a) (m_off (set_cache [] m)) = false) by (apply veqb_off; auto). rewrite V. cbn [set_tally set_cache m_on m_e m_type].
  rewrite ONE, ON. destruct (lv_head _ _ _ (LEV ST LV)) as (t & r & E). rewrite E, TY. cbn [fits]. eexists. split; [reflexivity|]. cbn. auto.
Qed.

Lemma create_ok : forall v x, x <> NegInf -> let r := create true TAny false true x v in snd r = Mok tt /\ m_stats (fst r) = false /\ m_level (fst r) = true /\ m_type (fst r) = TAny.
Proof. intros v x X r. subst r. destruct x as [q| |i n]; [|congruence|]; (split; [vm_compute; reflexivity|]; split; [vm_compute; reflexivity|]; split; vm_compute; reflexivity). Qed.
Lemma create_good : forall v a, exists m, create true TAny false true (code a) v = (m, Mok tt) /\ m_stats m = false /\ m_level m = true /\ m_type m = TAny.
Proof.
  intros v a. pose proof (create_ok v (code a) (code_ok a)) as K. cbv zeta in K. destruct (create true TAny false true (code a) v) as [m r]. cbn [fst snd] in K. destruct K as (-> & K). exists m. auto.
Qed.
Definition good (v : menv) (m : mon) (h : hist) (x : val) : Prop :=
  traced v m h /\ on_of h = true /\ m_stats m = false /\ m_level m = true /\ m_type m = TAny /\ value_of h = x.
Lemma feed_good : forall xs v m h a, good v m h (code a) ->
  exists m' h', feed (map code xs) v m = (m', Mok tt) /\ good v m' h' (code (last xs a)) /\
    (forall t, level_at h' t = match xs with [] => level_at h t | _ => if Qle_bool (v_now v) t then Some (code (last xs a)) else level_at h t end) /\
    (forall g u, integral g h' u == match xs with [] => integral g h u | _ => g (code (last xs a)) * (u - v_now v) + integral g h (v_now v) end).
Proof.
  induction xs as [|x xs IH]; intros v m h a G.
  - exists m, h. cbn [map feed last]. split; [auto|]. split; [auto|]. split; intros; reflexivity.
  - destruct G as (T & ON & ST & LV & TY & VA). pose proof (traced_inv _ _ _ T) as I.
    destruct (tally_good v m h x I ST LV TY ON) as (m1 & E & ST1 & LV1 & TY1).
    assert (T1 : traced v m1 (note_op (OTally (code x) 1) (v_now v) h)).
    { eapply tr_ok; [exact T| |unfold mexec; rewrite E; reflexivity]. split; [|intros _; lra]. split; [rewrite TY; auto|]. rewrite LV. apply veqb_off; auto. }
    cbn [note_op] in T1. destruct (IH v m1 ((v_now v, HTally (code x) 1) :: h) x) as (m2 & h2 & E2 & G2 & L2 & I2).
    { split; [auto|]. cbn [on_of value_of]. auto. }
    exists m2, h2. cbn [map feed]. rewrite E. split; [auto|]. assert (LA : last (x :: xs) a = last xs x) by (destruct xs as [|y ys]; [reflexivity|]; change (last (x :: y :: ys) a) with (last (y :: ys) a); clear; revert y; induction ys as [|z zs IH]; intro y; [reflexivity|]; apply (IH z)).
    rewrite LA. split; [auto|]. split.
    + intro t. rewrite L2. destruct xs as [|y ys]; rewrite level_at_cons by auto; cbn [last]; [reflexivity|]. destruct (Qle_bool (v_now v) t); reflexivity.
    + intros g u. rewrite I2. destruct xs as [|y ys]; cbn [integral on_of value_of starts last]; rewrite ON; ring.
Qed.

Definition gcode (g : val -> Q) (s : env) : Q := g (code (obs s)).
Lemma spent_ext : forall g hs a b, a == b -> spent g hs a == spent g hs b.
Proof. intros g [|s hs] a b E; cbn; [lra|]. rewrite E. lra. Qed.
(** the invariant that ties the two models together *)
Lemma watch_inv : forall v s m hs, watch v s m hs ->
  exists h, good v m h (code (obs s)) /\ Fut s /\ v_now v == now s /\ v_off v == off s /\ (exists r, hs = s :: r) /\
    (forall t, level_at h t = option_map (fun s1 => code (obs s1)) (state_at hs t)) /\
    (forall g u, integral g h u == spent (gcode g) hs u).
Proof.
  intros v s m hs W. induction W as [s v m r S VN VO C|v s m hs n o s' r xs m' r' W IH E X F].
  - assert (OK : value_ok (mkMon true TAny false false true (code (obs s)) 0 0 [] WNo 0 acc0 acc0 []) (code (obs s))).
    { split; [auto|]. cbn [m_level]. apply veqb_off. auto. }
    pose proof (fun m' => tr_new true TAny false true (code (obs s)) v m') as TN. cbn [create] in TN.
    clear TN. destruct (create_good v (obs s)) as (m1 & E1 & ST & LV & TY). rewrite E1 in C. injection C as -> <-.
    exists [(v_now v, HMade (code (obs s)) true)]. split; [split; [exact (tr_new true TAny false true (code (obs s)) v m E1 OK)|cbn; auto]|].
    split; [apply started_Fut; auto|]. split; [auto|]. split; [auto|]. split; [eauto|]. split.
    + intro t. cbn [level_at on_of value_of starts]. unfold state_at. cbn [find]. rewrite (Qle_bool_l _ _ t VN). destruct (Qle_bool (now s) t); reflexivity.
    + intros g u. cbn [integral on_of value_of starts spent]. unfold gcode. rewrite VN. reflexivity.
  - destruct IH as (h & (T & ON & ST & LV & TY & VA) & FU & VN & VO & (r0 & HS) & LA & IN).
    destruct (f_any _ _ _ _ _ FU E) as [LE FU'].
    assert (G : good (clock_of v s s') m h (code (obs s))).
    { split; [|auto]. pose proof (tr_ok v m h (OTick (now s' - now s)) (mkMenv (v_now v + (now s' - now s)) (v_off v)) m T) as T1. cbn [op_ok mexec note_op] in T1. specialize (T1 ltac:(lra) eq_refl).
      pose proof (tr_ok _ m h (OResetNow (off s')) (clock_of v s s') m T1 Logic.I eq_refl) as T2. exact T2. }
    destruct (feed_good xs _ m h (obs s) G) as (m2 & h2 & E2 & G2 & L2 & I2). rewrite F in E2. injection E2 as -> ->. rewrite X in *.
    assert (VN' : v_now (clock_of v s s') == now s') by (cbn; lra).
    exists h2. split; [auto|]. split; [auto|]. split; [auto|]. split; [cbn; reflexivity|]. split; [eauto|]. split.
    + intro t. rewrite L2. unfold state_at. cbn [find]. fold (state_at hs t). rewrite (Qle_bool_l _ _ t VN'). destruct xs as [|x xs].
      * destruct (Qle_bool (now s') t) eqn:B; [|apply LA]. rewrite LA. cbn [last] in X. apply Qle_bool_iff in B. rewrite HS. unfold state_at. cbn [find].
        assert (B2 : Qle_bool (now s) t = true) by (apply Qle_bool_iff; lra). rewrite B2. cbn. rewrite X. auto.
      * destruct (Qle_bool (now s') t); [reflexivity|apply LA].
    + intros g u. rewrite I2. cbn [spent]. unfold gcode at 1. destruct xs as [|x xs].
      * rewrite (integral_split g h (now s') u); [|intro; subst; discriminate]. rewrite ON, VA, IN. cbn [last] in X. rewrite X. reflexivity.
      * rewrite IN. rewrite (spent_ext _ hs _ _ VN'). rewrite VN'. reflexivity.
Qed.

(** every tally succeeds *)
Theorem C58_never_raises : forall v s m hs n o s' r xs m' r', watch v s m hs -> exec n o s = (s', r) -> feed (map code xs) (clock_of v s s') m = (m', r') -> r' = Mok tt.
Proof.
  intros v s m hs n o s' r xs m' r' W E F. destruct (watch_inv _ _ _ _ W) as (h & (T & ON & ST & LV & TY & VA) & FU & VN & VO & _ & _).
  destruct (f_any _ _ _ _ _ FU E) as [LE _].
  assert (G : good (clock_of v s s') m h (code (obs s))).
  { split; [|auto]. pose proof (tr_ok v m h (OTick (now s' - now s)) (mkMenv (v_now v + (now s' - now s)) (v_off v)) m T) as T1. cbn [op_ok mexec note_op] in T1. specialize (T1 ltac:(lra) eq_refl).
    exact (tr_ok _ m h (OResetNow (off s')) (clock_of v s s') m T1 Logic.I eq_refl). }
  destruct (feed_good xs _ m h (obs s) G) as (m2 & h2 & E2 & _). rewrite F in E2. congruence.
Qed.
(** now: monitor() and monitor.value are the present value; so is monitor(env.now()) *)
Theorem C58_now : forall v s m hs, watch v s m hs ->
  call None v m = Mok (code (obs s)) /\ m_tally m = code (obs s) /\ forall t, t == now s - off s -> call (Some t) v m = Mok (code (obs s)).
Proof.
  intros v s m hs W. destruct (watch_inv _ _ _ _ W) as (h & (T & ON & ST & LV & TY & VA) & FU & VN & VO & _ & _).
  pose proof (mi_val _ _ _ (traced_inv _ _ _ T) LV) as MV. unfold call. rewrite LV. cbn [negb]. rewrite MV, VA. split; [auto|]. split; [auto|].
  intros t E. assert (X : Qeq_bool (t + v_off v) (v_now v) = true) by (apply Qeqb_true; lra). rewrite X. auto.
Qed.
(** the past: monitor(t) is the value in the state that was there at t; before the monitor was made it is the off value *)
Theorem C58_past : forall v s m hs t, watch v s m hs ->
  call (Some t) v m = Mok (match state_at hs (t + off s) with Some s1 => code (obs s1) | None => NegInf end).
Proof.
  intros v s m hs t W. destruct (watch_inv _ _ _ _ W) as (h & (T & ON & ST & LV & TY & VA) & FU & VN & VO & _ & LA & _).
  rewrite (C37_on v m h t T ST LV ON). rewrite LA. assert (X : state_at hs (t + v_off v) = state_at hs (t + off s)).
  { unfold state_at. clear -VO. induction hs as [|s1 hs IH]; cbn [find]; [auto|]. rewrite IH. assert (B : Qle_bool (now s1) (t + v_off v) = Qle_bool (now s1) (t + off s)).
    { destruct (Qle_bool (now s1) (t + off s)) eqn:B; [apply Qle_bool_iff in B; apply Qle_bool_iff; lra|apply Qle_bool_false_iff in B; apply Qle_bool_false_iff; lra]. }
    rewrite B. auto. }
  rewrite X. destruct (state_at hs (t + off s)); cbn [option_map]; auto. unfold m_off. rewrite TY. auto.
Qed.
(** how long the value was one of vs *)
Theorem C58_duration : forall vs v s m hs, watch v s m hs ->
  exists m' d, value_duration vs v m = (m', Mok d) /\ d == spent (fun s1 => if existsb (veqb (code (obs s1))) vs then 1 else 0) hs (now s).
Proof.
  intros vs v s m hs W. destruct (watch_inv _ _ _ _ W) as (h & (T & ON & ST & LV & TY & VA) & FU & VN & VO & _ & _ & IN).
  destruct (C38_value_duration vs v m h T ST LV) as (m' & d & E & D). exists m', d. split; [auto|]. rewrite D, IN. rewrite (spent_ext _ hs _ _ VN). reflexivity.
Qed.
(** the mean over time; None (nan) only when no time has passed *)
Lemma spent_one : forall hs s0 u, spent (fun _ => 1) (hs ++ [s0]) u == u - now s0.
Proof. induction hs as [|s1 hs IH]; intros s0 u; cbn; [ring|]. rewrite IH. ring. Qed.
Theorem C58_mean : forall v s m hs s0, watch v s m (hs ++ [s0]) ->
  exists m' r, mean false v m = (m', Mok r) /\
    match r with None => now s == now s0 | Some mu => ~ now s == now s0 /\ mu * (now s - now s0) == spent (fun s1 => number (code (obs s1))) (hs ++ [s0]) (now s) end.
Proof.
  intros v s m hs s0 W. destruct (watch_inv _ _ _ _ W) as (h & (T & ON & ST & LV & TY & VA) & FU & VN & VO & _ & _ & IN).
  destruct (C38_mean v m h T LV) as (m' & r & E & D). exists m', r. split; [auto|]. unfold on_time in D.
  assert (O : integral (fun _ => 1) h (v_now v) == now s - now s0) by (rewrite IN; unfold gcode; rewrite spent_one, VN; reflexivity).
  assert (N : integral number h (v_now v) == spent (fun s1 => number (code (obs s1))) (hs ++ [s0]) (now s)) by (rewrite IN; rewrite (spent_ext _ _ _ _ VN); reflexivity).
  destruct r as [mu|]; rewrite O in D; [rewrite N in D; destruct D; split; [lra|auto]|lra].
Qed.
End Watch.


(** *** the status of a component *)
Definition status_of (c : nat) (s : env) : status := c_status (comps s c).
Definition status_code (x : status) : val :=
  Oth (match x with Data => 0 | Current => 1 | Standby => 2 | Passive => 3 | Scheduled => 4 | Requesting => 5 | Waiting => 6 | Interrupted => 7 end) None.
Definition same_status (x y : status) : bool := match x, y with
  | Data, Data | Current, Current | Standby, Standby | Passive, Passive | Scheduled, Scheduled | Requesting, Requesting | Waiting, Waiting | Interrupted, Interrupted => true | _, _ => false end.
Lemma same_status_eq : forall x y, same_status x y = true <-> x = y.
Proof. destruct x, y; cbn; split; congruence. Qed.
Lemma status_code_ok : forall x, status_code x <> NegInf.
Proof. discriminate. Qed.
Lemma status_code_inj : forall x y, status_code x = status_code y -> x = y.
Proof. destruct x, y; intro H; try reflexivity; discriminate H. Qed.
Lemma status_code_eqb : forall x y, veqb (status_code x) (status_code y) = same_status x y.
Proof. destruct x, y; reflexivity. Qed.
Lemma spent_ext2 : forall f g hs u, (forall s, f s == g s) -> spent f hs u == spent g hs u.
Proof. induction hs as [|s hs IH]; intros u E; cbn; [lra|]. rewrite (IH _ E), (E s). lra. Qed.
Lemma spent_plus : forall f g hs u, spent (fun s => f s + g s) hs u == spent f hs u + spent g hs u.
Proof. induction hs as [|s hs IH]; intro u; cbn; [lra|]. rewrite IH. ring. Qed.
(** the present status, the status at t, and the time spent in a status *)
Theorem C58_status : forall c v s m hs, watch (status_of c) status_code v s m hs ->
  call None v m = Mok (status_code (status_of c s)) /\
  (forall t, call (Some t) v m = Mok (match state_at hs (t + off s) with Some s1 => status_code (status_of c s1) | None => NegInf end)) /\
  forall x, exists m' d, value_duration [status_code x] v m = (m', Mok d) /\ d == spent (fun s1 => if same_status (status_of c s1) x then 1 else 0) hs (now s).
Proof.
  intros c v s m hs W. split; [apply (C58_now (status_of c) status_code status_code_ok v s m hs W)|]. split; [intro t; apply (C58_past (status_of c) status_code status_code_ok v s m hs t W)|].
  intro x. destruct (C58_duration (status_of c) status_code status_code_ok [status_code x] v s m hs W) as (m' & d & E & D). exists m', d. split; [auto|]. rewrite D. apply spent_ext2.
  intro s1. cbn [existsb]. rewrite status_code_eqb, orb_false_r. reflexivity.
Qed.
(** the times spent in the eight statuses add up to the time since the monitor was made *)
Definition statuses := [Data; Current; Standby; Passive; Scheduled; Requesting; Waiting; Interrupted].
Theorem C58_status_partition : forall c v s m hs s0, watch (status_of c) status_code v s m (hs ++ [s0]) ->
  exists ds, Forall2 (fun x d => exists m', value_duration [status_code x] v m = (m', Mok d)) statuses ds /\ sumQ ds == now s - now s0.
Proof.
  intros c v s m hs s0 W. destruct (C58_status c v s m _ W) as (_ & _ & D).
  assert (G : forall xs, exists ds, Forall2 (fun x d => exists m', value_duration [status_code x] v m = (m', Mok d)) xs ds /\
    sumQ ds == spent (fun s1 => sumQ (map (fun x => if same_status (status_of c s1) x then 1 else 0) xs)) (hs ++ [s0]) (now s)).
  { induction xs as [|x xs (ds & F & E)].
    - exists []. split; [constructor|]. cbn [map sumQ]. symmetry. clear. generalize (now s). induction (hs ++ [s0]) as [|a l IH]; intro u; cbn; [lra|]. rewrite IH. ring.
    - destruct (D x) as (m' & d & E1 & D1). exists (d :: ds). split; [constructor; eauto|]. cbn [map sumQ]. rewrite spent_plus, <- E, <- D1. reflexivity. }
  destruct (G statuses) as (ds & F & E). exists ds. split; [auto|]. rewrite E. rewrite <- (spent_one hs s0 (now s)). apply spent_ext2. intro s1. destruct (status_of c s1); reflexivity.
Qed.
(** *** numbers: the value of a state, the length of a queue, a claimed quantity *)
Definition int_code (z : Z) : val := Num (inject_Z z).
Definition length_of (q : qref) (s : env) : Z := Z.of_nat (length (qs s q)).
Theorem C58_state : forall j v s m hs, watch (fun s1 => sval s1 j) int_code v s m hs ->
  call None v m = Mok (Num (inject_Z (sval s j))) /\ forall t, call (Some t) v m = Mok (match state_at hs (t + off s) with Some s1 => Num (inject_Z (sval s1 j)) | None => NegInf end).
Proof.
  intros j v s m hs W. assert (K : forall z, int_code z <> NegInf) by discriminate. split; [apply (C58_now _ int_code K v s m hs W)|]. intro t. apply (C58_past _ int_code K v s m hs t W).
Qed.
(** the mean length of a queue is the time average of its length *)
Theorem C58_length : forall q v s m hs s0, watch (length_of q) int_code v s m (hs ++ [s0]) ->
  call None v m = Mok (Num (inject_Z (Z.of_nat (length (qs s q))))) /\
  exists m' r, mean false v m = (m', Mok r) /\
    match r with None => now s == now s0 | Some mu => ~ now s == now s0 /\ mu * (now s - now s0) == spent (fun s1 => inject_Z (Z.of_nat (length (qs s1 q)))) (hs ++ [s0]) (now s) end.
Proof.
  intros q v s m hs s0 W. assert (K : forall z, int_code z <> NegInf) by discriminate. split; [apply (C58_now _ int_code K v s m _ W)|]. apply (C58_mean _ int_code K v s m hs s0 W).
Qed.
Theorem C58_claimed : forall r v s m hs s0, watch (fun s1 => r_claimed (rsc s1 r)) Num v s m (hs ++ [s0]) ->
  call None v m = Mok (Num (r_claimed (rsc s r))) /\
  exists m' a, mean false v m = (m', Mok a) /\
    match a with None => now s == now s0 | Some mu => ~ now s == now s0 /\ mu * (now s - now s0) == spent (fun s1 => r_claimed (rsc s1 r)) (hs ++ [s0]) (now s) end.
Proof.
  intros r v s m hs s0 W. assert (K : forall z, Num z <> NegInf) by discriminate. split; [apply (C58_now _ Num K v s m _ W)|]. apply (C58_mean _ Num K v s m hs s0 W).
Qed.

(** *** a case: component 1 is created with a delay of 2, becomes current at 2 and holds for 3 *)
Fixpoint follow {A} (obs : env -> A) (code : A -> val) (ops : list op) (w : menv * env * mon * list env) : menv * env * mon * list env :=
  match ops with
  | [] => w
  | o :: r => let '(v, s, m, hs) := w in let s' := fst (exec 9 o s) in let v' := clock_of v s s' in
      follow obs code r (v', s', fst (feed [code (obs s')] v' m), s' :: hs)
  end.
Definition wv (w : menv * env * mon * list env) := fst (fst (fst w)).
Definition ws (w : menv * env * mon * list env) := snd (fst (fst w)).
Definition wm (w : menv * env * mon * list env) := snd (fst w).
Definition wh (w : menv * env * mon * list env) := snd w.
Lemma follow_watch : forall A obs code ops w, watch (A := A) obs code (wv w) (ws w) (wm w) (wh w) -> let w' := follow obs code ops w in watch obs code (wv w') (ws w') (wm w') (wh w').
Proof.
  induction ops as [|o ops IH]; intros w W; [exact W|]. destruct w as [[[v s] m] hs]. unfold wv, ws, wm, wh in W. cbn [fst snd] in W. cbn [follow].
  destruct (exec 9 o s) as [s' r] eqn:E. cbn [fst]. destruct (feed [code (obs s')] (clock_of v s s') m) as [m' r'] eqn:F. cbn [fst].
  apply IH. unfold wv, ws, wm, wh. cbn [fst snd]. eapply wa_call with (xs := [obs s']); eauto.
Qed.
Definition start1 : menv * env * mon * list env := (mkMenv 0 0, env0, fst (create true TAny false true (status_code (status_of 1 env0)) (mkMenv 0 0)), [env0]).
Lemma start1_watch : watch (status_of 1) status_code (wv start1) (ws start1) (wm start1) (wh start1).
Proof.
  unfold start1, wv, ws, wm, wh. cbn [fst snd]. destruct (create true TAny false true (status_code (status_of 1 env0)) (mkMenv 0 0)) as [m r] eqn:E. cbn [fst]. eapply wa_new; eauto.
  - exists 0. do 6 eexists. constructor.
  - reflexivity.
  - reflexivity.
Qed.
Definition watched1 := follow (status_of 1) status_code (two_holds ++ [OStep]) start1.
Example C58_case : watch (status_of 1) status_code (wv watched1) (ws watched1) (wm watched1) (wh watched1) /\ now (ws watched1) == 5 /\
  call None (wv watched1) (wm watched1) = Mok (status_code (status_of 1 (ws watched1))) /\ call (Some 1) (wv watched1) (wm watched1) = Mok (status_code Scheduled) /\
  call (Some (-(1))) (wv watched1) (wm watched1) = Mok NegInf /\
  (match snd (value_duration [status_code Scheduled] (wv watched1) (wm watched1)) with Mok d => d == 5 | _ => False end) /\ length (wh watched1) = 7%nat.
Proof.
  split; [apply follow_watch, start1_watch|]. split; [vm_compute; reflexivity|]. split; [vm_compute; reflexivity|]. split; [vm_compute; reflexivity|]. split; [vm_compute; reflexivity|]. split; [vm_compute; reflexivity|]. vm_compute. reflexivity.
Qed.
Print Assumptions C58_never_raises.
Print Assumptions C58_now.
Print Assumptions C58_past.
Print Assumptions C58_duration.
Print Assumptions C58_mean.
Print Assumptions C58_status.
Print Assumptions C58_status_partition.
Print Assumptions C58_state.
Print Assumptions C58_length.
Print Assumptions C58_claimed.
