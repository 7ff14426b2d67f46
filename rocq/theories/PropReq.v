(** Properties C15, C16, C17: requests of several resources, time-outs, ending a component. *)
From Coq Require Import QArith Lqa List Bool Arith ZArith Lia.
From Verif Require Import Base Kernel Wp KernelE KernelL KernelX KernelT KernelU KernelR KernelQ KernelS KernelI KernelP KernelA KernelB KernelC KernelG KernelV KernelW PropSched PropRes.
Import ListNotations.
Open Scope Q_scope.

(** ** C15 *)
(** what c has asked of r *)
Definition asked_of (s : env) (r c : nat) : Q := match alookup r (c_requests (comps s c)) with Some q => q | None => 0 end.
(** [o] asks on behalf of c *)
Definition asks (o : op) (c : nat) : Prop := match o with ORequest x _ _ _ _ _ _ => x = c | _ => False end.
(** [o] asks a preemptive resource *)
Definition preempts (s : env) (o : op) : Prop :=
  match o with ORequest _ args _ _ _ _ _ => exists r q p, In (r, q, p) args /\ r_preempt (rsc s r) = true | _ => False end.
(** the requests and claims of c have not changed / have been withdrawn / have been honored, all of them / have been honored, one of them *)
Definition same_claims (s : env) (c : nat) (s' : env) : Prop := forall r, claim_of s' r c == claim_of s r c.
Definition got_all (s : env) (c : nat) (s' : env) : Prop :=
  forall r, claim_of s' r c == claim_of s r c + if r_anon (rsc s r) then 0 else asked_of s r c.
Definition got_one (s : env) (c r0 : nat) (s' : env) : Prop :=
  forall r, claim_of s' r c == claim_of s r c + if r_anon (rsc s r) || negb (Nat.eqb r r0) then 0 else asked_of s r c.
Definition outcome (s : env) (c : nat) (s' : env) : Prop :=
  (c_requests (comps s' c) = c_requests (comps s c) /\ c_oneof (comps s' c) = c_oneof (comps s c) /\ same_claims s c s') \/
  (c_requests (comps s' c) = [] /\ same_claims s c s') \/
  (c_requests (comps s' c) = [] /\ c_requests (comps s c) <> [] /\ c_oneof (comps s c) = false /\ got_all s c s') \/
  (c_requests (comps s' c) = [] /\ c_oneof (comps s c) = true /\ exists r0, In r0 (keys (c_requests (comps s c))) /\ got_one s c r0 s').

Definition apart (c : nat) (l : lab) : Prop :=
  match l with LQuiet x => x <> Some c | LAsk d _ _ => d <> c | LFree d _ _ _ _ => d <> c | _ => True end.
Lemma apart_step : forall c l s s', apart c l -> lstep l s s' -> GI none s -> (forall x, l = LGrant x -> x <> c) ->
  (c_requests (comps s' c) = c_requests (comps s c) \/ c_requests (comps s' c) = []) /\ c_claims (comps s' c) = c_claims (comps s c) /\ c_oneof (comps s' c) = c_oneof (comps s c).
Proof.
  intros c l s s' A H G NG. destruct l; cbn in H, A.
  - split; [apply (qt_rq _ _ H)|]. split; [apply (qt_cl _ _ H) | apply (qt_one _ _ H); auto].
  - assert (E : comps s' c = comps s c).
    { assert (E : comps s' = comps (asked s c0 r q)) by (destruct H as (_ & [(_ & ->)|(_ & p & ->)]); auto). rewrite E. unfold asked. rewrite comps_diff; auto. }
    rewrite E. auto.
  - destruct H as (_ & _ & s1 & T & ->). assert (c0 <> c) by (apply NG; auto). rewrite comps_diff by auto. rewrite (tk_oth _ _ _ _ _ T) by auto. auto.
  - destruct H as (_ & _ & _ & H). rewrite (gv_oth _ _ _ _ _ _ H) by auto. auto.
  - destruct H as (_ & H & _). rewrite H. cbn. auto.
  - destruct H as (H & _). rewrite H. cbn. auto.
Qed.
Lemma claim_granted : forall s c s' r, granted s c s' ->
  claim_of s' r c == claim_of s r c + if r_anon (rsc s r) || negb (memb r (grant s c)) then 0 else asked_of s r c.
Proof.
  intros s c s' r (s1 & T & ->). destruct (tk_self _ _ _ _ _ T) as (cl & E & _ & L). unfold claim_of. rewrite comps_same, E. cbn [c_claims w_claims w_requests].
  rewrite L. unfold asked_of. destruct (alookup r (c_requests (comps s c))) as [q|].
  - destruct (memb r (grant s c)), (r_anon (rsc s r)); cbn [andb orb negb]; try (destruct (alookup r (c_claims (comps s c))); lra).
  - destruct (r_anon (rsc s r) || negb (memb r (grant s c))); destruct (alookup r (c_claims (comps s c))); lra.
Qed.
Lemma outcome_grant : forall s c s', GI none s -> lstep (LGrant c) s s' -> outcome s c s' /\ c_requests (comps s' c) = [].
Proof.
  intros s c s' G (_ & NG & H). pose proof H as (s1 & T & E). assert (RQ : c_requests (comps s' c) = []) by (rewrite E, comps_same; reflexivity).
  split; auto. right. right. destruct (gi_ks _ _ G c) as (ND & _). unfold grant in NG. destruct (c_oneof (comps s c)) eqn:O.
  - right. split; auto. split; auto. destruct (find _ _) as [(r0, q0)|] eqn:F; [|destruct NG; auto]. exists r0.
    assert (M : grant s c = [r0]) by (unfold grant; rewrite O, F; auto). apply find_some in F. destruct F as (F & _).
    split; [apply (in_map fst _ (r0, q0)); auto|]. intros r. rewrite (claim_granted _ _ _ r H), M. cbn [memb existsb]. rewrite orb_false_r. reflexivity.
  - left. split; auto. destruct (forallb _ _) eqn:F; [|destruct NG; auto]. split; [intros Z; rewrite Z in NG; auto|]. split; auto. intros r.
    rewrite (claim_granted _ _ _ r H). unfold grant. rewrite O, F. unfold asked_of.
    destruct (alookup r (c_requests (comps s c))) as [q|] eqn:A; [|destruct (r_anon (rsc s r)), (memb r (keys (c_requests (comps s c)))); cbn; lra].
    assert (M : memb r (keys (c_requests (comps s c))) = true) by (apply memb_iff; eapply alookup_Some_key; eauto). rewrite M, orb_false_r. reflexivity.
Qed.
Lemma grant_nil : forall s c, c_requests (comps s c) = [] -> grant s c = [].
Proof. intros s c E. unfold grant. rewrite E. destruct (c_oneof (comps s c)); reflexivity. Qed.
Lemma apart_nil : forall (P : lab -> Prop) c s s', (forall l, P l -> apart c l) -> rpath P s s' -> c_requests (comps s c) = [] ->
  c_requests (comps s' c) = [] /\ c_claims (comps s' c) = c_claims (comps s c).
Proof.
  intros P c s s' HP H. induction H as [s|l s s1 s2 L G H G1 R IH]; intros E; auto.
  destruct (apart_step c l s s1 (HP _ L) H G) as (A & B & _).
  { intros x -> ->. destruct H as (_ & NG & _). apply NG, grant_nil; auto. }
  destruct IH as (I1 & I2); [destruct A; congruence|]. split; congruence.
Qed.
Lemma outcome_path : forall (P : lab -> Prop) c s s', (forall l, P l -> apart c l) -> rpath P s s' -> outcome s c s'.
Proof.
  intros P c s s' HP H. induction H as [s|l s s1 s2 L G H G1 R IH]; [left; split; [auto | split; [auto | intros r; lra]]|].
  assert (D : l = LGrant c \/ forall x, l = LGrant x -> x <> c).
  { destruct l; try (right; discriminate). destruct (Nat.eq_dec c0 c) as [->|]; auto. right. intros x E. congruence. }
  destruct D as [->|D].
  - destruct (outcome_grant _ _ _ G H) as (O & E). destruct (apart_nil P c s1 s2 HP R E) as (E2 & C2).
    assert (K : forall r, claim_of s2 r c = claim_of s1 r c) by (intros; unfold claim_of; rewrite C2; auto).
    unfold outcome, same_claims, got_all, got_one in *. rewrite E in O. rewrite E2.
    destruct O as [(O1 & O2 & O3)|[(O1 & O2)|[(O1 & O2 & O3 & O4)|(O1 & O2 & r0 & O3 & O4)]]].
    + right; left. split; auto. intros. rewrite K. auto.
    + right; left. split; auto. intros. rewrite K. auto.
    + right; right; left. split; [auto|split; [auto|split; auto]]. intros. rewrite K. auto.
    + right; right; right. split; [auto|split; auto]. exists r0. split; auto. intros. rewrite K. auto.
  - destruct (apart_step c l s s1 (HP _ L) H G D) as ([A|A] & B & C).
    + assert (K : forall r, claim_of s1 r c = claim_of s r c) by (intros; unfold claim_of; rewrite B; auto).
      assert (K2 : forall r, asked_of s1 r c = asked_of s r c) by (intros; unfold asked_of; rewrite A; auto).
      assert (K3 : forall r, r_anon (rsc s1 r) = r_anon (rsc s r)) by (intros; eapply kind_anon, lstep_kind; eauto).
      unfold outcome, same_claims, got_all, got_one in *. rewrite A, C in IH.
      destruct IH as [(O1 & O2 & O3)|[(O1 & O2)|[(O1 & O2 & O3 & O4)|(O1 & O2 & r0 & O3 & O4)]]].
      * left. split; [auto|split; auto]. intros. rewrite <- K. auto.
      * right; left. split; auto. intros. rewrite <- K. auto.
      * right; right; left. split; [auto|split; [auto|split; auto]]. intros. rewrite <- K, <- K2, <- K3. auto.
      * right; right; right. split; [auto|split; auto]. exists r0. split; auto. intros. rewrite <- K, <- K2, <- K3. auto.
    + destruct (apart_nil P c s1 s2 HP R A) as (E2 & C2). right; left. split; auto. intros r. unfold claim_of. rewrite C2, B. lra.
Qed.
Lemma no_bump : forall z o s s', rpath (labs z o) s s' -> (forall r, r_preempt (rsc s r) = r_preempt (rsc z r)) -> ~ preempts z o ->
  rpath (fun l => labs z o l /\ forall c r v q, l <> LFree c r v q true) s s'.
Proof.
  intros z o s s' H. induction H as [s|l s s1 s2 L G H G1 R IH]; intros K N; [apply rp_nil|].
  eapply rp_cons; eauto.
  - split; auto. intros c r v q ->. apply N. destruct L as (_ & d & args & one & f & p & u & cap & x & pr & -> & I). cbn.
    exists r, x, pr. split; auto. rewrite <- K. apply H; auto.
  - apply IH; auto. intros r. rewrite <- K. pose proof (lstep_kind _ _ _ r H) as E. injection E. auto.
Qed.
Lemma call_apart : forall P s o s' c, reach_p P s -> call s o s' -> ~ frees s o c -> ~ preempts s o -> ~ asks o c ->
  rpath (fun l => labs s o l /\ apart c l) s s'.
Proof.
  intros P s o s' c R C F B A. eapply rpath_weak; [|apply no_bump; [eapply call_path; eauto | auto | auto]].
  intros l (L & NB). split; auto. destruct l; cbn in *; auto.
  - destruct x as [x|]; [|discriminate]. intros E. injection E as ->. destruct L as (args & one & f & p & u & cap & ->). apply A; cbn; auto.
  - intros ->. destruct L as (args & one & f & p & u & cap & pr & -> & _). apply A; cbn; auto.
  - intros ->. destruct b; [eapply NB; eauto|]. destruct L as (L & _). auto.
Qed.
(** whatever call is made (not by c itself, and not one that takes claims from c): the request of c stays as it is, or is withdrawn
    without any claim, or is honored as a whole (oneof: for exactly one resource) *)
Theorem C15_all_or_nothing : forall s o s' c, reachable s -> call s o s' -> ~ frees s o c -> ~ preempts s o -> ~ asks o c -> outcome s c s'.
Proof. intros s o s' c R C F B A. eapply outcome_path; [|eapply call_apart; eauto]. cbn. tauto. Qed.

(** *** The decision *)
(** q of r can be handed to c: enough is left (or, giving back: enough is in use), and the rules of r allow it to be c's turn *)
Definition available (s : env) (r : nat) (q : Q) : Prop :=
  (0 < q -> match r_cap (rsc s r) with PInf => True | Fin k => q <= k - r_claimed (rsc s r) + eps end) /\
  (q <= 0 -> - q <= r_claimed (rsc s r) + eps).
Definition turn_of (s : env) (c r : nat) : Prop :=
  (r_hfirst (rsc s r) = true -> exists p l, qs s (QReq r) = (c, p) :: l) /\
  (r_hprio (rsc s r) = true -> exists p h ph l, In (c, p) (qs s (QReq r)) /\ qs s (QReq r) = (h, ph) :: l /\ xeq p ph).
Lemma and_both : forall A B C D : Prop, (A <-> C) -> (B <-> D) -> (A /\ B <-> C /\ D). Proof. tauto. Qed.
Lemma can_one_iff : forall s c r q, mem s (QReq r) c -> NoDup (map fst (qs s (QReq r))) -> (can_one s c r q = true <-> available s r q /\ turn_of s c r).
Proof.
  intros s c r q M ND. unfold can_one. rewrite andb_true_iff, and_comm. apply and_both.
  - unfold enough, available, avail. destruct (Qltb 0 q) eqn:B.
    + apply Qltb_iff in B. rewrite negb_true_iff, xltb_false_iff. destruct (r_cap (rsc s r)); cbn; split; intros H; try (split; [intros _|intros; lra]); try tauto.
    + apply Qltb_false_iff in B. rewrite negb_true_iff, Qltb_false_iff. split; intros H; [split; intros; lra|]. destruct H as (_ & H). specialize (H B). lra.
  - unfold allowed, turn_of. rewrite andb_true_iff. unfold mem in M. destruct (alookup_ex _ c (qs s (QReq r)) M) as (p & P). unfold qprio. rewrite P.
    pose proof (alookup_In _ _ _ _ P) as PI. apply and_both.
    + destruct (r_hfirst (rsc s r)); cbn; [|intuition discriminate]. destruct (qs s (QReq r)) as [|(h, ph) l]; [destruct M|].
      rewrite Nat.eqb_eq. split; [intros -> _; eauto | intros H; destruct (H eq_refl) as (p' & l' & E); congruence].
    + destruct (r_hprio (rsc s r)); cbn; [|intuition discriminate]. destruct (qs s (QReq r)) as [|(h, ph) l] eqn:Q; [destruct M|].
      rewrite xeqb_iff. split.
      * intros E _. exists p, h, ph, l. auto.
      * intros H. destruct (H eq_refl) as (p' & h' & ph' & l' & I & E & X). injection E as <- <- <-.
        rewrite (In_alookup _ _ _ _ ND I) in P. injection P as ->. auto.
Qed.
(** what c_try does apart from claiming: an event for c *)
Record tail (c : nat) (s s' : env) : Prop := {
  tl_rsc : rsc s' = rsc s; tl_qs : qs s' = qs s; tl_oth : forall d, d <> c -> comps s' d = comps s d;
  tl_rq : c_requests (comps s' c) = c_requests (comps s c); tl_cl : c_claims (comps s' c) = c_claims (comps s c) }.
Lemma tail_po : forall c, preorder (tail c).
Proof.
  intros c. constructor; [intros s; constructor; auto|]. intros x y z [A1 A2 A3 A4 A5] [B1 B2 B3 B4 B5]. constructor; try congruence.
  intros d N. rewrite B3, A3; auto.
Qed.
Lemma tail_same : forall c s s', rsc s' = rsc s -> qs s' = qs s -> comps s' = comps s -> tail c s s'.
Proof. intros c s s' A B C. constructor; rewrite ?C; auto. Qed.
Lemma tail_comp : forall c f s, c_requests (f (comps s c)) = c_requests (comps s c) -> c_claims (f (comps s c)) = c_claims (comps s c) -> tail c s (m_comp c f s).
Proof. intros c f s A B. constructor; auto; [intros; apply comps_diff; auto | rewrite comps_same; auto | rewrite comps_same; auto]. Qed.
Ltac ftl c := fgo (tail_po c); first [apply tail_comp; reflexivity | apply tail_same; reflexivity].
Lemma tl_remove : forall c, frames (tail c) (remove c). Proof. intros. unfold remove. ftl c. Qed.
Lemma tl_reschedule : forall c t p u cap, frames (tail c) (reschedule c t p u cap). Proof. intros. unfold reschedule, push. ftl c. Qed.
Lemma ok_remove : forall c s, (c_onev (comps s c) = true -> ev_del c (evl s) <> None) -> wp (remove c) (fun _ s' => tail c s s' /\ now s' = now s) (fun _ _ => False) s.
Proof.
  intros c s H. pose proof (frames_wp _ _ (remove c) s (tl_remove c)) as T. pose proof (frames_wp _ _ (remove c) s (nd_remove c)) as N.
  assert (K : wp (remove c) (fun _ _ => True) (fun _ _ => False) s).
  { unfold remove. apply wp_bind, wp_get. apply wp_if; intros B.
    - apply wp_bind, wp_get. destruct (ev_del c (evl s)); [|destruct (H B); auto]. apply wp_bind, wp_put, wp_setc. auto.
    - apply wp_bind, wp_stat. apply wp_when; intros _; auto. apply wp_bind, wp_put, wp_put. auto. }
  unfold wp in *. destruct (remove c s) as [s' [a|e]]; [|destruct K]. split; auto. apply N.
Qed.
Lemma try_noop : forall s c, GI none s -> EI s -> c_status (comps s c) <> Interrupted ->
  (grant s c = [] /\ c_try (fun _ => ret tt) c s = (s, Ok false)) \/
  (grant s c <> [] /\ exists s1 s', granted s c s1 /\ tail c s1 s' /\ c_try (fun _ => ret tt) c s = (s', Ok true)).
Proof.
  intros s c G EE SI.
  assert (W : wp (c_try (fun _ => ret tt) c) (fun b s' => (grant s c = [] /\ s' = s /\ b = false) \/ (grant s c <> [] /\ b = true /\ exists s1, granted s c s1 /\ tail c s1 s'))
     (fun _ _ => False) s).
  { unfold c_try. apply wp_bind, wp_stat. replace (steqb (c_status (comps s c)) Interrupted) with false by (symmetry; apply steqb_false_iff; auto).
    apply wp_bind, wp_get, wp_bind. eapply wp_eq; [apply grant_eq; auto|].
    destruct (grant s c) as [|r0 rh0] eqn:GR; [apply wp_ret; auto|]. rewrite <- GR.
    apply wp_bind, wp_get, wp_bind, wp_get, wp_bind.
    eapply wp_conseq; [apply took_all; auto | cbv beta | intros ? ? []]. intros _ s1 T. apply wp_bind, wp_setc.
    set (s2 := m_comp c (w_requests []) s1). assert (GG : granted s c s2) by (exists s1; auto).
    assert (FF : c_onev (comps s2 c) = c_onev (comps s c) /\ evl s2 = evl s).
    { unfold s2. rewrite comps_same. destruct (tk_self _ _ _ _ _ T) as (cl & E & _). rewrite E. split; auto. rewrite (tk_env _ _ _ _ _ T). reflexivity. }
    destruct FF as (F1 & F2).
    apply wp_bind. eapply wp_conseq; [apply ok_remove | cbv beta | intros ? ? []].
    { rewrite F1, F2. intros O D. apply ev_del_none in D. apply D, (ei_onev _ EE); auto. }
    intros _ s3 (T3 & _). apply wp_bind, wp_setc, wp_bind, wp_get, wp_bind.
    match goal with |- wp _ _ _ ?z => set (s4 := z) end.
    assert (T4 : tail c s2 s4) by (eapply (po_trans _ (tail_po c)); [exact T3 | apply tail_comp; reflexivity]).
    pose proof (frames_wp _ _ _ s4 (tl_reschedule c (Fin (now s4)) (Fin 0) false (Some false))) as TR.
    pose proof (w_reschedule c (Fin (now s4)) (Fin 0) false (Some false) s4) as TE.
    assert (W5 : wp (reschedule c (Fin (now s4)) (Fin 0) false (Some false)) (fun _ z => tail c s2 z) (fun _ _ => False) s4).
    { unfold wp in *. destruct (reschedule c (Fin (now s4)) (Fin 0) false (Some false) s4) as [s5 [u|e]]; [eapply (po_trans _ (tail_po c)); eauto|].
      destruct TE as (_ & _ & TE & _). cbn in TE. apply Qltb_iff in TE. lra. }
    eapply wp_conseq; [exact W5 | cbv beta | intros ? ? []]. intros _ s5 T5. assert (NE : grant s c <> []) by congruence.
    apply wp_bind, wp_get, wp_bind. apply wp_if; intros SW.
    - apply wp_setc, wp_ret. right. split; [auto|]. split; auto. exists s2. split; auto. eapply (po_trans _ (tail_po c)); [exact T5 | apply tail_comp; reflexivity].
    - eapply wp_conseq; [apply wp_mfor_inv with (I := fun z => z = s5) (X := fun _ _ => False); auto; intros x z _ ->; apply wp_ret; auto | cbv beta | auto].
      intros _ z ->. apply wp_ret. right. split; [auto|]. split; auto. exists s2. auto. }
  unfold wp in W. destruct (c_try (fun _ => ret tt) c s) as [s' [b|e]]; [|destruct W].
  destruct W as [(A & -> & ->)|(A & -> & s1 & B & C)]; [left; auto|]. right. split; auto. exists s1, s'. auto.
Qed.
(** Component._tryrequest, before any other component is retried: it decides on what is available and then claims everything at once *)
Theorem C15_decision : forall s c, reachable s -> c_status (comps s c) <> Interrupted -> c_requests (comps s c) <> [] ->
  let rq := c_requests (comps s c) in
  exists s' b, c_try (fun _ => ret tt) c s = (s', Ok b) /\
    (b = false -> s' = s) /\
    (b = true -> c_requests (comps s' c) = [] /\ (forall r, ~ In c (map fst (qs s' (QReq r)))) /\
       (forall d, d <> c -> comps s' d = comps s d) /\ (forall r, ~ In r (keys rq) -> r_claimed (rsc s' r) = r_claimed (rsc s r))) /\
    (c_oneof (comps s c) = false ->
       (b = true <-> forall r q, In (r, q) rq -> available s r q /\ turn_of s c r) /\
       (b = true -> got_all s c s' /\ forall r q, In (r, q) rq -> r_claimed (rsc s' r) == r_claimed (rsc s r) + q)) /\
    (c_oneof (comps s c) = true ->
       (b = true <-> exists r q, In (r, q) rq /\ available s r q /\ turn_of s c r) /\
       (b = true -> exists l1 r0 q0 l2, rq = l1 ++ (r0, q0) :: l2 /\ available s r0 q0 /\ turn_of s c r0 /\
          (forall r q, In (r, q) l1 -> ~ (available s r q /\ turn_of s c r)) /\ got_one s c r0 s' /\
          forall r, r_claimed (rsc s' r) == r_claimed (rsc s r) + if Nat.eqb r r0 then q0 else 0)).
Proof.
  intros s c R SI NR rq. pose proof (reach_p_QI _ _ R) as QQ. pose proof (qi_g _ QQ) as G. destruct (gi_ks _ _ G c) as (ND & _).
  assert (CO : forall r q, In (r, q) rq -> (can_one s c r q = true <-> available s r q /\ turn_of s c r)).
  { intros r q I. apply can_one_iff; [apply GI_mem_req; auto; apply (in_map fst _ (r, q)); auto | apply (gi_nd _ _ G (QReq r))]. }
  assert (LK : forall r q, In (r, q) rq -> alookup r rq = Some q) by (intros; apply In_alookup; auto).
  destruct (try_noop s c G (ki_e _ (qi_k _ QQ)) SI) as [(GR & E)|(GR & s1 & s' & GG & T & E)].
  - exists s, false. split; auto. split; auto. split; [discriminate|]. unfold grant in GR. fold rq in GR. split; intros O; rewrite O in GR; (split; [|discriminate]); (split; [discriminate|]).
    + intros H. exfalso. assert (F : forallb (fun p => can_one s c (fst p) (snd p)) rq = true).
      { apply forallb_forall. intros (r, q) I. apply CO; auto. }
      rewrite F in GR. apply NR. change (rq = []). destruct rq; [auto | discriminate].
    + intros (r & q & I & H). exfalso. destruct (find _ rq) eqn:F; [discriminate|]. apply CO in H; auto. pose proof (find_none _ _ F (r, q) I) as K. cbn in K. congruence.
  - exists s', true. split; auto. split; [discriminate|]. pose proof GG as (s0 & TK & E1).
    assert (RS : forall r, plain (rsc s' r) = plain (match alookup r rq with Some q => if memb r (grant s c) then r_tally (w_claimed (r_claimed (rsc s r) + q) (rsc s r)) else rsc s r | None => rsc s r end)).
    { intros r. rewrite (tl_rsc _ _ _ T). apply grant_rsc; auto. }
    assert (CM : forall r, r_claimed (rsc s' r) = match alookup r rq with Some q => if memb r (grant s c) then r_claimed (rsc s r) + q else r_claimed (rsc s r) | None => r_claimed (rsc s r) end).
    { intros r. destruct (plain_claimed _ _ (RS r)) as (-> & _). destruct (alookup r rq); auto. destruct (memb r (grant s c)); auto. }
    assert (CF : forall r, claim_of s' r c = claim_of s1 r c) by (intros r; unfold claim_of; rewrite (tl_cl _ _ _ T); auto).
    split.
    { intros _. split; [rewrite (tl_rq _ _ _ T), E1, comps_same; auto|]. split; [|split].
      - intros r. rewrite (tl_qs _ _ _ T), E1. change (qs (m_comp c (w_requests []) s0) (QReq r)) with (qs s0 (QReq r)). rewrite (tk_req _ _ _ _ _ TK).
        intros I. destruct (memb r (keys rq)) eqn:B; fold rq in I; rewrite B in I; [apply keys_adel_in in I; tauto|].
        apply memb_false_iff in B. apply B. apply (gi_mem _ _ G (QReq r) c eq_refl). auto.
      - intros d D. rewrite (tl_oth _ _ _ T), E1, comps_diff, (tk_oth _ _ _ _ _ TK) by auto. auto.
      - intros r N. rewrite CM. replace (alookup r rq) with (@None Q); auto. symmetry. apply alookup_None; auto. }
    destruct (outcome_grant s c s1 G) as (OC & _); [split; [auto|split; auto]|].
    unfold grant in GR. fold rq in GR. split; intros O; rewrite O in GR.
    + destruct (forallb _ rq) eqn:F; [|destruct GR; auto]. rewrite forallb_forall in F. split; [split; auto; intros _ r q I; apply CO; auto; apply (F (r, q)); auto|].
      intros _. assert (GE : grant s c = keys rq). { unfold grant. fold rq. rewrite O. rewrite (proj2 (forallb_forall _ _) F). auto. }
      split.
      * intros r. rewrite CF, (claim_granted _ _ _ r GG), GE. unfold asked_of. fold rq.
        destruct (alookup r rq) as [q|] eqn:A; [|destruct (r_anon (rsc s r)), (memb r (keys rq)); cbn; lra].
        assert (M : memb r (keys rq) = true) by (apply memb_iff; eapply alookup_Some_key; eauto). rewrite M, orb_false_r. reflexivity.
      * intros r q I. rewrite CM, (LK _ _ I), GE. assert (M : memb r (keys rq) = true) by (apply memb_iff, (in_map fst _ (r, q)); auto). rewrite M. reflexivity.
    + destruct (find _ rq) as [(r0, q0)|] eqn:F; [|destruct GR; auto]. assert (GE : grant s c = [r0]) by (unfold grant; fold rq; rewrite O, F; auto).
      pose proof (find_some _ _ F) as (I0 & C0). cbn in C0. split; [split; auto; intros _; exists r0, q0; split; auto; apply CO; auto|]. intros _.
      assert (SP : exists l1 l2, rq = l1 ++ (r0, q0) :: l2 /\ forall x, In x l1 -> can_one s c (fst x) (snd x) = false).
      { clear - F. induction rq as [|x t IH]; [discriminate|]. cbn in F. destruct (can_one s c (fst x) (snd x)) eqn:B.
        - injection F as ->. exists [], t. split; [auto | intros x []].
        - destruct (IH F) as (l1 & l2 & E & K). exists (x :: l1), l2. split; [cbn; congruence|]. intros y [<-|I]; auto. }
      destruct SP as (l1 & l2 & SP & K). exists l1, r0, q0, l2. split; auto.
      split; [apply (CO r0 q0); auto|]. split; [apply (CO r0 q0); auto|]. split.
      { intros r q I H. apply CO in H; [|rewrite SP; apply in_or_app; auto]. specialize (K _ I). cbn in K. congruence. }
      split.
      * intros r. rewrite CF, (claim_granted _ _ _ r GG), GE. cbn [memb existsb]. rewrite orb_false_r. reflexivity.
      * intros r. rewrite CM, GE. cbn [memb existsb]. rewrite orb_false_r. destruct (Nat.eqb_spec r r0) as [->|]; [rewrite (LK _ _ I0); reflexivity | destruct (alookup r rq); lra].
Qed.

(** *** The call itself *)
Record asking (s : env) (c : nat) (one : bool) (rq : list (nat * Q)) (s1 : env) : Prop := {
  as_g : GI none s1; as_cl : forall d, c_claims (comps s1 d) = c_claims (comps s d); as_kind : forall r, kind (rsc s1 r) = kind (rsc s r);
  as_one : c_oneof (comps s1 c) = one; as_rq : c_requests (comps s1 c) = rq }.
Lemma asking_quiet : forall A (m : M A) s c one rq s1, frames (quiet None) m -> frames (RG none) m -> asking s c one rq s1 ->
  asking s c one rq (fst (m s1)) \/ asking s c one [] (fst (m s1)).
Proof.
  intros A m s c one rq s1 F1 F2 [G C K O R]. specialize (F1 s1). specialize (F2 s1 G).
  assert (K' : forall r, kind (rsc (fst (m s1)) r) = kind (rsc s r)) by (intros r; rewrite <- K; apply plain_kind, (qt_rsc _ _ F1)).
  assert (C' : forall d, c_claims (comps (fst (m s1)) d) = c_claims (comps s d)) by (intros d; rewrite <- C; apply (qt_cl _ _ F1)).
  assert (O' : c_oneof (comps (fst (m s1)) c) = one) by (rewrite <- O; apply (qt_one _ _ F1); discriminate).
  destruct (qt_rq _ _ F1 c) as [E|E]; [left | right]; constructor; auto; congruence.
Qed.
Lemma aset_new : forall A k (v : A) l, ~ In k (keys l) -> aset k v l = l ++ [(k, v)].
Proof. induction l as [|(a, b) t IH]; cbn; intros N; auto. destruct (Nat.eqb_spec k a); [subst; tauto|]. f_equal. apply IH. tauto. Qed.
Lemma w_ask1 : forall n c b r q p s one rq s1, asking s c one rq s1 -> r_preempt (rsc s r) = false -> ~ In r (keys rq) ->
  wp (request1 n c b (r, q, p)) (fun _ s2 => asking s c one (rq ++ [(r, q)]) s2) (fun _ _ => True) s1.
Proof.
  intros n c b r q p s one rq s1 A PB N.
  assert (G2 : wp (request1 n c b (r, q, p)) (fun _ s' => GI none s') (fun _ s' => GI none s') s1) by (apply w_rg; auto using gq_request1; apply A).
  assert (W : wp (request1 n c b (r, q, p)) (fun _ s2 => (forall d, c_claims (comps s2 d) = c_claims (comps s d)) /\ (forall r, kind (rsc s2 r) = kind (rsc s r)) /\
      c_oneof (comps s2 c) = one /\ c_requests (comps s2 c) = rq ++ [(r, q)]) (fun _ _ => True) s1).
  { destruct A as [G C K O R]. pose proof (K r) as KR. assert (P1 : r_preempt (rsc s1 r) = false) by (unfold kind in KR; congruence).
    unfold request1. apply wp_bind, wp_get, wp_bind, wp_when; intros _; [apply wp_raise; auto|]. apply wp_bind, wp_when; intros _; [apply wp_raise; auto|].
    apply wp_bind, wp_setc, wp_bind. unfold q_enter at 1. apply wp_bind, wp_get. apply wp_if; intros _; [apply wp_raise; auto|]. apply wp_put.
    rewrite P1. apply wp_ret. split; [|split; [exact K|split]].
    - intros d. change (comps (m_q ?a ?f ?z)) with (comps z). destruct (Nat.eq_dec d c) as [->|]; [rewrite comps_same | rewrite comps_diff by auto]; apply C.
    - change (comps (m_q ?a ?f ?z)) with (comps z). rewrite comps_same. exact O.
    - change (comps (m_q ?a ?f ?z)) with (comps z). rewrite comps_same. cbn [c_requests w_requests]. rewrite R.
      replace (alookup r rq) with (@None Q) by (symmetry; apply alookup_None; auto). apply aset_new; auto. }
  eapply wp_conseq; [eapply wp_conj; [exact G2 | exact W] | |]; cbv beta; [|auto]. intros _ s2 (G & C & K & O & R). constructor; auto.
Qed.
Definition pairs (args : list (nat * Q * xq)) : list (nat * Q) := map fst args.
Lemma w_ask : forall n c b s one args rq s1, asking s c one rq s1 -> (forall r q p, In (r, q, p) args -> r_preempt (rsc s r) = false) ->
  NoDup (keys rq ++ keys (pairs args)) ->
  wp (mfor args (request1 n c b)) (fun _ s2 => asking s c one (rq ++ pairs args) s2) (fun _ _ => True) s1.
Proof.
  intros n c b s one. induction args as [|((r, q), p) t IH]; intros rq s1 A PB ND; cbn [mfor].
  - apply wp_ret. cbn. rewrite app_nil_r. auto.
  - apply wp_bind. eapply wp_conseq; [apply w_ask1; eauto | cbv beta | auto].
    + eapply PB. left; reflexivity.
    + cbn in ND. apply NoDup_remove_2 in ND. intros I. apply ND, in_or_app. auto.
    + intros _ s2 A2. change (pairs ((r, q, p) :: t)) with ((r, q) :: pairs t). replace (rq ++ (r, q) :: pairs t) with ((rq ++ [(r, q)]) ++ pairs t) by (rewrite <- app_assoc; reflexivity).
      apply IH; auto; [intros; eapply PB; right; eauto|]. unfold keys in *. rewrite map_app. cbn in *. rewrite <- app_assoc. auto.
Qed.
Definition nq (l : lab) : Prop := match l with LQuiet None | LGrant _ => True | _ => False end.
Lemma w_c_try : forall n c s, GI none s ->
  wp (c_try (r_try n) c) (fun _ s' => s' = s \/ exists s1, lstep (LGrant c) s s1 /\ GI none s1 /\ rpath nq s1 s') (fun _ _ => True) s.
Proof.
  intros n c s G. unfold c_try.
  apply wp_bind, wp_stat. apply wp_if; intros B; [apply wp_ret; auto|]. apply steqb_false_iff in B.
  apply wp_bind, wp_get, wp_bind. eapply wp_eq; [apply grant_eq; auto|].
  destruct (grant s c) as [|r0 rh0] eqn:GR; [apply wp_ret; auto|]. rewrite <- GR.
  apply wp_bind, wp_get, wp_bind, wp_get, wp_bind.
  eapply wp_conseq; [apply took_all; auto | cbv beta | intros ? ? []]. intros _ s1 T. apply wp_bind, wp_setc.
  assert (GG : granted s c (m_comp c (w_requests []) s1)) by (exists s1; auto).
  pose proof (granted_GI _ _ _ G GG) as G2.
  assert (L : lstep (LGrant c) s (m_comp c (w_requests []) s1)) by (split; [auto|]; split; [congruence | auto]).
  match goal with |- wp ?m _ _ ?z => assert (F : frames (RP nq) m) end.
  { assert (HQ : nq (LQuiet None)) by exact Logic.I. assert (HG : forall c, nq (LGrant c)) by (intros; exact Logic.I).
    frp nq; auto using rp_remove, rp_reschedule, rp_r_try. }
  eapply wp_conseq; [apply (frames_wp _ _ _ _ F) | | auto]; cbv beta. intros b s' K. right. destruct (K G2). eauto.
Qed.
Lemma asking_quiet_wp : forall A (m : M A) s c one s1, frames (quiet None) m -> frames (RG none) m -> asking s c one [] s1 ->
  wp m (fun _ s2 => asking s c one [] s2) (fun _ _ => True) s1.
Proof.
  intros A m s c one s1 F1 F2 H. destruct (asking_quiet A m s c one [] s1 F1 F2 H) as [K|K]; unfold wp; destruct (m s1) as [s2 [a|e]]; auto.
Qed.
Lemma asking_comp : forall s c one rq s1 f, asking s c one rq s1 -> (forall x, lists (f x) = lists x /\ c_claims (f x) = c_claims x /\ c_oneof (f x) = c_oneof x /\ c_requests (f x) = c_requests x) ->
  asking s c one rq (m_comp c f s1).
Proof.
  intros s c one rq s1 f [G C K O R] F. constructor; rewrite ?comps_same; auto.
  - apply GI_comp; auto. apply F.
  - intros d. destruct (Nat.eq_dec d c) as [->|]; [rewrite comps_same; rewrite <- C; apply F | rewrite comps_diff; auto].
  - rewrite <- O. apply F.
  - rewrite <- R. apply F.
Qed.
Lemma asking_rsc : forall s c one rq s1 r f, asking s c one rq s1 -> (forall x, kind (f x) = kind x) -> asking s c one rq (m_rsc r f s1).
Proof.
  intros s c one rq s1 r f [G C K O R] F. constructor; auto; [eapply GI_same; [| |exact G]; reflexivity|].
  intros x. rewrite rsc_m_rsc. destruct (Nat.eqb_spec x r) as [->|]; [rewrite F|]; auto.
Qed.
(** c asks: either nothing is claimed and c is waiting for exactly what it asked, or c got everything (oneof: one of them) and waits for nothing *)
Theorem C15_request : forall s n c args one f p u cap s', reachable s -> wf s (ORequest c args one f p u cap) ->
  exec n (ORequest c args one f p u cap) s = (s', Ok tt) -> ~ preempts s (ORequest c args one f p u cap) -> NoDup (keys (pairs args)) ->
  let gets r q := claim_of s' r c == claim_of s r c + if r_anon (rsc s r) then 0 else q in
  (c_requests (comps s' c) = pairs args /\ c_status (comps s' c) = Requesting /\ same_claims s c s') \/
  (c_requests (comps s' c) = [] /\ one = false /\ (forall r q, In (r, q) (pairs args) -> gets r q) /\ forall r, ~ In r (keys (pairs args)) -> gets r 0) \/
  (c_requests (comps s' c) = [] /\ one = true /\ exists r0 q0, In (r0, q0) (pairs args) /\ gets r0 q0 /\ forall r, r <> r0 -> gets r 0).
Proof.
  intros s n c args one f p u cap s' R W E NP ND gets. pose proof (reach_p_QI _ _ R) as QQ. pose proof (qi_g _ QQ) as G.
  set (res := fun s' => c_requests (comps s' c) = pairs args /\ same_claims s c s' \/
     exists s1 s2, asking s c one (pairs args) s1 /\ lstep (LGrant c) s1 s2 /\ c_requests (comps s' c) = [] /\ c_claims (comps s' c) = c_claims (comps s2 c)).
  assert (WP : wp (request n c args one f p u cap) (fun _ s' => res s' /\ (c_requests (comps s' c) <> [] -> c_status (comps s' c) = Requesting)) (fun _ _ => True) s).
  { unfold request. apply wp_bind, wp_setc, wp_bind, wp_stat, wp_bind.
    set (sa := m_comp c (w_oneof one) s).
    assert (A0 : asking s c one (c_requests (comps s c)) sa).
    { unfold sa. constructor; rewrite ?comps_same; auto; [apply GI_comp; auto|]. intros d. destruct (Nat.eq_dec d c) as [->|]; [rewrite comps_same | rewrite comps_diff]; auto. }
    eapply wp_conseq with (Q := fun _ s1 => asking s c one [] s1) (X := fun _ _ => True); [| |auto].
    - unfold sa in *. rewrite comps_same. cbn [c_status w_oneof]. apply wp_when; intros B.
      + match goal with |- wp ?m _ _ ?z => assert (FQ : frames (quiet None) m) end.
        { fgo quiet_po; auto with qt. }
        match goal with |- wp ?m _ _ ?z => assert (FG : frames (RG none) m) end.
        { fgo (RG_po none); auto with gq. }
        match goal with |- wp ?m _ _ ?z => assert (FR : wp m (fun _ s' => free c s') (fun _ _ => True) z) end.
        { do 3 (apply wp_skip; intros ? ?). apply w_check_fail_free. }
        match goal with |- wp ?m _ _ ?z => pose proof (asking_quiet _ m s c one _ z FQ FG A0) as AQ end.
        unfold wp in *. match goal with |- context [match ?m ?z with _ => _ end] => destruct (m z) as [s2 [a|e]] end; auto.
        destruct AQ as [[G1 C1 K1 O1 R1]|AQ]; auto. constructor; auto. apply FR.
      + replace (c_requests (comps s c)) with (@nil (nat * Q)) in A0; auto. symmetry. apply negb_false_iff, steqb_iff in B. apply (ki_l _ (qi_k _ QQ)). rewrite B. unfold idle; tauto.
    - clear A0. intros _ s1 A1. cbv beta. apply wp_bind. eapply wp_conseq; [apply asking_quiet_wp; eauto with qt gq | | auto]; cbv beta.
      clear A1. intros t s2 A2. apply wp_bind, wp_setc. apply asking_comp with (f := w_failed false) in A2; [|auto].
      destruct args as [|a0 ar]; [destruct W as (_ & _ & W & _); destruct W; auto|]. set (args := a0 :: ar) in *.
      apply wp_bind. eapply wp_conseq; [apply (w_ask n c _ s one args [] _ A2) | cbv beta | auto].
      { intros r q pr I. destruct (r_preempt (rsc s r)) eqn:PP; auto. destruct NP. cbn. exists r, q, pr. auto. }
      { cbn. auto. }
      clear A2. intros _ s3 A3. cbn [app] in A3. apply wp_bind, wp_get, wp_bind.
      eapply wp_conseq; [apply wp_mfor_inv with (I := asking s c one (pairs args)) (X := fun _ _ => True); auto | cbv beta | auto].
      { intros x z _ AZ. apply wp_setr. apply asking_rsc; auto. intros y. destruct (xltb _ _); reflexivity. }
      clear A3. intros _ s4 A4. apply wp_bind, wp_get, wp_bind, wp_setc. apply asking_comp with (f := w_rem (xsubq t (now s4))) in A4; [|auto].
      match goal with |- wp _ _ _ ?z => set (s5 := z) in * end.
      apply wp_bind. eapply wp_conseq; [apply w_c_try; apply A4 | cbv beta | auto]. intros b s6 K.
      assert (R6 : res s6).
      { destruct K as [->|(s7 & L & G7 & PA)].
        - left. split; [apply (as_rq _ _ _ _ _ A4)|]. intros r. unfold claim_of. rewrite (as_cl _ _ _ _ _ A4). lra.
        - right. exists s5, s7. split; auto. split; auto. destruct (outcome_grant _ _ _ (as_g _ _ _ _ _ A4) L) as (_ & EN).
          apply (apart_nil nq); auto. intros [[]| | | | |]; cbn; try tauto; discriminate. }
      apply wp_bind, wp_get. apply wp_when; intros B; [|split; auto; intros NE; destruct (c_requests (comps s6 c)); [congruence | discriminate]].
      apply wp_bind, wp_setc.
      match goal with |- wp _ _ _ ?z => set (s8 := z) end.
      pose proof (frames_wp _ _ _ s8 (tl_reschedule c t p u cap)) as TR. pose proof (w_reschedule c t p u cap s8) as TE.
      unfold wp in *. destruct (reschedule c t p u cap s8) as [s9 [x|e]]; auto. destruct TE as (_ & _ & _ & TE & _).
      assert (T9 : tail c s6 s9) by (eapply (po_trans _ (tail_po c)); [apply tail_comp with (f := w_status Requesting); reflexivity | exact TR]).
      split; [|intros _; rewrite TE; unfold s8; rewrite comps_same; reflexivity].
      unfold res, same_claims, claim_of in *. rewrite (tl_rq _ _ _ T9), (tl_cl _ _ _ T9). exact R6. }
  cbn [exec] in E. unfold wp in WP. rewrite E in WP. destruct WP as ([(R1 & R2)|(s1 & s2 & A & L & R1 & R2)] & ST).
  - left. split; auto. split; auto. apply ST. rewrite R1. destruct W as (_ & _ & W & _). destruct args; cbn; [congruence | discriminate].
  - right. destruct (outcome_grant _ _ _ (as_g _ _ _ _ _ A) L) as (OC & EN). pose proof L as (_ & _ & GG).
    assert (CL : forall r, claim_of s' r c == claim_of s r c + if r_anon (rsc s r) || negb (memb r (grant s1 c)) then 0 else asked_of s1 r c).
    { intros r. unfold claim_of at 1. rewrite R2. change (match alookup r (c_claims (comps s2 c)) with Some v => v | None => 0 end) with (claim_of s2 r c).
      rewrite (claim_granted _ _ _ r GG). rewrite (kind_anon _ _ (as_kind _ _ _ _ _ A r)). unfold claim_of. rewrite (as_cl _ _ _ _ _ A). reflexivity. }
    assert (AS : forall r q, In (r, q) (pairs args) -> asked_of s1 r c = q).
    { intros r q I. unfold asked_of. rewrite (as_rq _ _ _ _ _ A), (In_alookup _ _ _ _ ND I). auto. }
    pose proof (as_rq _ _ _ _ _ A) as RQ. unfold outcome in OC. rewrite EN, RQ, (as_one _ _ _ _ _ A) in OC. unfold gets. destruct L as (_ & NG & _).
    unfold grant in NG. rewrite RQ, (as_one _ _ _ _ _ A) in NG. destruct one.
    + right. split; auto. split; auto. destruct (find _ _) as [(r0, q0)|] eqn:F; [|destruct NG; auto].
      assert (GE : grant s1 c = [r0]) by (unfold grant; rewrite RQ, (as_one _ _ _ _ _ A), F; auto). apply find_some in F. destruct F as (F & _).
      exists r0, q0. split; auto. split.
      * rewrite CL, GE. cbn [memb existsb]. rewrite Nat.eqb_refl. cbn. rewrite orb_false_r, (AS _ _ F). reflexivity.
      * intros r D. rewrite CL, GE. cbn [memb existsb]. destruct (Nat.eqb_spec r r0); [congruence|]. cbn. rewrite orb_true_r. destruct (r_anon (rsc s r)); lra.
    + left. split; auto. split; auto. destruct (forallb _ _) eqn:F; [|destruct NG; auto].
      assert (GE : grant s1 c = keys (pairs args)) by (unfold grant; rewrite RQ, (as_one _ _ _ _ _ A), F; auto). split.
      * intros r q I. rewrite CL, GE. assert (M : memb r (keys (pairs args)) = true) by (apply memb_iff, (in_map fst _ (r, q)); auto). rewrite M, orb_false_r, (AS _ _ I). reflexivity.
      * intros r N. rewrite CL, GE. apply memb_false_iff in N. rewrite N, orb_true_r. destruct (r_anon (rsc s r)); lra.
Qed.

(** 3 asks 2 of resource 0 and 2 of the anonymous resource 1 and gets both at once; 2, asking 4 of resource 0 where 2 are left, gets nothing;
    when 1 gives back 3 it gets nothing either (3 is less than 4), when 1 gives back all 3 claimed by it and 3 ends it is honored;
    4 asks one of 2 of resource 0 and 2 of resource 3 and gets resource 3 *)
Definition o3 : op := req 3 [(0%nat, 2, Fin 1); (1%nat, 2, Fin 0)].
Definition o4 : op := ORequest 4 [(0%nat, 2, Fin 0); (3%nat, 2, Fin 0); (4%nat, 1, Fin 0)] true SNone (Fin 0) false None.
Definition before3 : env := stp any envr (removelast busy).
Definition before4 : env := stp any envr (busy ++ [OStep]).
Example C15_case_request :
  (reachable before3 /\ wf before3 o3 /\ ~ preempts before3 o3 /\ NoDup (keys (pairs [(0%nat, 2, Fin 1); (1%nat, 2, Fin 0)])) /\
   snd (exec 19 o3 before3) = Ok tt /\ claim_of (fst (exec 19 o3 before3)) 0 3 == 2 /\ r_claimed (rsc (fst (exec 19 o3 before3)) 1) == 3) /\
  (reachable before4 /\ wf before4 o4 /\ ~ preempts before4 o4 /\ snd (exec 19 o4 before4) = Ok tt /\
   c_claims (comps (fst (exec 19 o4 before4)) 4) = [(3%nat, 2)]).
Proof.
  assert (R3 : reachable before3) by (apply stp_reach; [auto | apply rs0_fresh | vm_compute; reflexivity]).
  assert (R4 : reachable before4) by (apply stp_reach; [auto | apply rs0_fresh | vm_compute; reflexivity]).
  split.
  - split; [exact R3|]. split; [apply wfb_wf; vm_compute; reflexivity|]. split.
    { intros (r & q & p & I & E). cbn [o3 req preempts In] in I. destruct I as [I|[I|[]]]; injection I as <- _ _; vm_compute in E; discriminate. }
    split; [repeat constructor; cbn; intuition discriminate|]. vm_compute. auto.
  - split; [exact R4|]. split; [apply wfb_wf; vm_compute; reflexivity|]. split.
    { intros (r & q & p & I & E). cbn [o4 preempts In] in I. destruct I as [I|[I|[I|[]]]]; injection I as <- _ _; vm_compute in E; discriminate. }
    vm_compute. auto.
Qed.
(** 1 releases: the waiting request of 2 is not affected by the first release and honored by the second *)
Definition after1 : env := stp any envr (busy ++ [OStep; OCancel 3]).
Example C15_case : reachable after1 /\ call after1 (ORelease 1 []) (fst (exec 19 (ORelease 1 []) after1)) /\
  c_requests (comps after1 2) = [(0%nat, 4)] /\ c_requests (comps (fst (exec 19 (ORelease 1 []) after1)) 2) = [] /\
  claim_of after1 0 2 == 0 /\ claim_of (fst (exec 19 (ORelease 1 []) after1)) 0 2 == 4 /\
  c_status (comps after1 2) <> Interrupted /\ ~ frees after1 (ORelease 1 []) 2 /\ ~ preempts after1 (ORelease 1 []) /\ ~ asks (ORelease 1 []) 2.
Proof.
  split; [apply stp_reach; [auto | apply rs0_fresh | vm_compute; reflexivity]|].
  split; [apply call_ok; vm_compute; reflexivity|]. split; [vm_compute; reflexivity|]. split; [vm_compute; reflexivity|].
  split; [vm_compute; reflexivity|]. split; [vm_compute; reflexivity|]. split; [vm_compute; discriminate|]. split; [cbn; discriminate|]. split; cbn; tauto.
Qed.

(** ** C16 *)
(** c waits for something (resources, states, stores) *)
Definition waiting (s : env) (c : nat) : Prop :=
  c_requests (comps s c) <> [] \/ c_waits (comps s c) <> [] \/ c_from (comps s c) <> [] \/ c_to (comps s c) <> [].
Definition fz (c : nat) (s s' : env) : Prop := c_failed (comps s c) = true -> c_failed (comps s' c) = true.
Lemma fz_po : forall c, preorder (fz c). Proof. intros c. constructor; unfold fz; auto. Qed.
Lemma fz_comp : forall c d f s, (forall x, c_failed x = true -> c_failed (f x) = true) -> fz c s (m_comp d f s).
Proof. intros c d f s H. unfold fz. rewrite comps_m_comp. destruct (Nat.eqb_spec c d) as [->|]; auto. Qed.
Lemma w_check_fail_failed : forall c s, waiting s c -> wp (check_fail c) (fun _ s' => c_failed (comps s' c) = true) (fun _ _ => True) s.
Proof.
  intros c s W. unfold check_fail.
  assert (Z : forall A (m : M A) s1, frames (fz c) m -> c_failed (comps s1 c) = true -> wp m (fun _ s' => c_failed (comps s' c) = true) (fun _ _ => True) s1).
  { intros A m s1 F H. eapply wp_conseq; [apply (frames_wp _ _ _ _ F) | |]; cbv beta; auto. }
  assert (FF : forall d f s, (forall x, c_failed x = true -> c_failed (f x) = true) -> fz c s (m_comp d f s)) by (intros; apply fz_comp; auto).
  do 3 (apply wp_bind, wp_get, wp_bind; apply wp_when; intro;
    [apply wp_skip; intros ? ?; apply wp_bind, wp_setc, wp_setc; apply Z;
      [unfold leave_req, q_leave; fgo (fz_po c); first [apply FF; solve [auto] | exact (fun z => z)] | rewrite comps_same; reflexivity]
    | match goal with H : nonnil _ = false |- _ => apply nonnil_false in H end]).
  apply wp_bind, wp_get. apply wp_when; intros B';
    [apply wp_skip; intros ? ?; apply wp_bind, wp_setc, wp_setc; rewrite comps_same; reflexivity | apply nonnil_false in B'].
  destruct W as [W|[W|[W|W]]]; congruence.
Qed.
Definition kf (c : nat) (s s' : env) : Prop := c_status (comps s' c) = c_status (comps s c) /\ c_retry (comps s' c) = c_retry (comps s c).
Lemma kf_po : forall c, preorder (kf c). Proof. intros c. constructor; unfold kf; [auto | intuition congruence]. Qed.
Lemma kf_comp : forall c d f s, (forall x, c_status (f x) = c_status x /\ c_retry (f x) = c_retry x) -> kf c s (m_comp d f s).
Proof. intros c d f s H. unfold kf. rewrite comps_m_comp. destruct (Nat.eqb_spec c d) as [->|]; auto. Qed.
Lemma kf_check_fail : forall c, frames (kf c) (check_fail c).
Proof. intros c. unfold check_fail, leave_req, q_leave. fgo (kf_po c); first [apply kf_comp; auto | split; reflexivity]. Qed.
(** when a component that is still waiting becomes current, this is at the time of its event, failed() is true, it is in no queue of
    waiting components any more and nothing has been claimed or released.
    (c_retry: in yieldless mode, what is left to be done for an earlier request of the component itself) *)
Theorem C16_timeout : forall s n s', reachable s -> wf s OStep -> exec n OStep s = (s', Ok tt) ->
  let c := cur s' in waiting s c -> c_retry (comps s c) = [] ->
  c_failed (comps s' c) = true /\ c_status (comps s' c) = Current /\ ~ waiting s' c /\
  (forall x, ~ In c (map fst (qs s' (QReq x))) /\ ~ In c (map fst (qs s' (QWait x))) /\ ~ In c (map fst (qs s' (QFrom x))) /\ ~ In c (map fst (qs s' (QTo x)))) /\
  (exists e, In e (evl s) /\ e_c e = c /\ now s' = e_t e /\ c_sched (comps s c) = Fin (e_t e)) /\
  (forall d, c_claims (comps s' d) = c_claims (comps s d)) /\
  (forall r, r_claimed (rsc s' r) = r_claimed (rsc s r) /\ r_cap (rsc s' r) = r_cap (rsc s r) /\ qs s' (QClaim r) = qs s (QClaim r)).
Proof.
  intros s n s' R W E c WT RT. pose proof (reach_p_QI _ _ R) as QQ.
  assert (QQ' : QI s') by (eapply QI_exec; eauto; discriminate).
  assert (NI : ~ idle (c_status (comps s c))).
  { intros I. destruct (free_idle s c (ki_l _ (qi_k _ QQ)) (qi_r _ QQ) I) as (F1 & F2 & F3 & F4). unfold noreq in F1. destruct WT as [X|[X|[X|X]]]; congruence. }
  assert (NM : c <> main).
  { intros X. rewrite X in WT. destruct (qi_m _ QQ) as (A1 & A2 & A3). pose proof (ki_m _ (qi_k _ QQ)) as A4. unfold noreq in A4. destruct WT as [Y|[Y|[Y|Y]]]; congruence. }
  assert (P : wp (step n) (fun _ z => cur z = c -> c_failed (comps z c) = true /\ c_status (comps z c) = Current /\ free c z /\
     (exists e, In e (evl s) /\ e_c e = c /\ now z = e_t e /\ c_sched (comps s c) = Fin (e_t e)) /\ quiet None s z) (fun _ _ => True) s).
  { apply w_step.
    - intros d t SK PD ST. split; auto. intros DM.
      eapply wp_conseq; [apply (frames_wp _ Rt _ _ (t_continue n d)) | |]; cbv beta; auto. intros _ z RR EC. exfalso. apply NI.
      assert (d = c) by (destruct RR as (A & B & _); cbn in *; congruence). subst d. rewrite ST. unfold idle; tauto.
    - intros _. split; [|intros _ EC; cbn in EC; congruence]. intros e l' EP s1. split; [intros EM EC; cbn in EC; congruence|]. intros EM.
      destruct (ev_pop_min _ _ _ EP) as (IN & _).
      assert (SC : c_sched (comps s (e_c e)) = Fin (e_t e)) by (apply (ei_sched _ (ki_e _ (qi_k _ QQ))); auto).
      assert (D : e_c e = c \/ e_c e <> c) by (destruct (Nat.eq_dec (e_c e) c); auto). destruct D as [D|D].
      + rewrite D in *.
        assert (Q0 : quiet None s (taken e l' (shuffle (dropped s)))).
        { apply (po_trans _ quiet_po) with (s_evl l' (shuffle (dropped s))).
          - apply quiet_same; cbn; [| | apply comps_sd]; unfold shuffle, dropped; destruct (c_skip _), (pend s); cbn; destruct (nonnil _); auto.
          - apply (po_trans _ quiet_po) with (m_comp (e_c e) (w_onev false) (s_evl l' (shuffle (dropped s)))); [apply quiet_comp; auto | apply quiet_same; reflexivity]. }
        assert (Q1 : quiet None s s1).
        { apply (po_trans _ quiet_po) with (1 := Q0). unfold s1, disp.
          eapply (po_trans _ quiet_po); [|eapply (po_trans _ quiet_po); [apply quiet_comp with (f := w_status Current); auto | apply quiet_comp with (f := w_sched PInf); auto]].
          apply quiet_same; reflexivity. }
        assert (C1 : comps s1 c = w_sched PInf (w_status Current (w_onev false (comps s c)))).
        { unfold s1, disp, taken. rewrite ?D, !comps_same. change (w_sched PInf (w_status Current (comps (m_comp c (w_onev false) (s_evl l' (shuffle (dropped s)))) c)) = w_sched PInf (w_status Current (w_onev false (comps s c)))). rewrite comps_same. cbn [comps s_evl]. rewrite comps_sd. reflexivity. }
        assert (W1 : waiting s1 c) by (unfold waiting; rewrite C1; exact WT).
        assert (R1 : now s1 = e_t e) by reflexivity.
        apply wp_bind. eapply wp_conseq; [eapply wp_conj; [apply (w_check_fail_failed c s1 W1) | eapply wp_conj; [apply (w_check_fail_free c s1) |
          eapply wp_conj; [apply (frames_wp _ _ _ s1 (qt_check_fail c)) | eapply wp_conj; [apply (frames_wp _ _ _ s1 (t_check_fail c)) | apply (frames_wp _ _ _ s1 (kf_check_fail c))]]]] | cbv beta | auto].
        intros _ s2 (F1 & F2 & F3 & (F4 & _) & F5 & F6). unfold continue. apply wp_bind, wp_get, wp_bind, wp_setc.
        rewrite F6, C1. cbn [c_retry w_sched w_status w_onev]. rewrite RT. cbn [mfor]. apply wp_ret. rewrite comps_same. intros _.
        split; [exact F1|]. split; [cbn; rewrite F5, C1; reflexivity|]. split; [unfold free, noreq, unrc, unr in *; rewrite comps_same; exact F2|].
        split; [exists e; split; [auto|]; split; [auto|]; split; [cbn; rewrite F4; exact R1 | auto]|].
        eapply (po_trans _ quiet_po); [exact Q1|]. eapply (po_trans _ quiet_po); [exact F3|]. apply quiet_comp; auto.
      + assert (F : frames Rt (check_fail (e_c e) ;;; continue n (e_c e))) by (fgo Rt_po; auto using t_check_fail, t_continue).
        eapply wp_conseq; [apply (frames_wp _ Rt _ _ F) | |]; cbv beta; auto. intros _ z (A & B & _) EC. cbn in B. congruence. }
  cbn [exec] in E. unfold wp in P. rewrite E in P. destruct (P eq_refl) as (P1 & P2 & P3 & P4 & P5).
  split; [auto|]. split; [auto|]. split.
  { destruct P3 as (A & A1 & A2 & A3). unfold noreq in A. intros [X|[X|[X|X]]]; congruence. }
  split; [|split; [auto|]; split; [apply (qt_cl _ _ P5)|]].
  - intros x. pose proof (QI_NQ _ _ QQ' (proj1 P3) (proj2 P3)) as NN.
    split; [apply (NN (QReq x)); auto|]. split; [apply (NN (QWait x)); auto|]. split; [apply (NN (QFrom x)); auto | apply (NN (QTo x)); auto].
  - intros r. destruct (plain_claimed _ _ (qt_rsc _ _ P5 r)) as (A & B & _). split; [auto|]. split; [auto | apply (qt_clm _ _ P5)].
Qed.
(** the time limit is booked at the given time: fail_delay counts from now, fail_at is on the user's time scale *)
Definition limit_of (o : op) : option (nat * spec) :=
  match o with
  | ORequest c _ _ f _ _ _ => Some (c, f) | OWait c _ _ f _ _ _ => Some (c, f) | OWaitFor c _ _ f _ _ _ => Some (c, f)
  | OFromStore c _ _ _ _ f _ _ _ => Some (c, f) | OToStore c _ _ _ _ f _ _ _ => Some (c, f) | _ => None
  end.
Definition not_honored (o : op) (s' : env) : Prop :=
  match o with
  | ORequest c _ _ _ _ _ _ => c_requests (comps s' c) <> [] | OWait c _ _ _ _ _ _ => c_waits (comps s' c) <> [] | OWaitFor c _ _ _ _ _ _ => c_waits (comps s' c) <> []
  | OFromStore c _ _ _ _ _ _ _ _ => c_from (comps s' c) <> [] | OToStore c _ _ _ _ _ _ _ _ => c_to (comps s' c) <> [] | _ => False
  end.
Lemma wp_run : forall n o s s' r (Q : unit -> env -> Prop) X, exec n o s = (s', r) -> wp (exec n o) Q X s ->
  match r with Ok a => Q a s' | Er e => X e s' end.
Proof. unfold wp. intros n o s s' r Q X E W. rewrite E in W. auto. Qed.
Theorem C16_booked : forall s n o s' c f t, reachable s -> wf s o -> limit_of o = Some (c, f) -> exec n o s = (s', Ok tt) ->
  match f with SDur (Fin d) => t == now s + d | STill (Fin x) => t - off s == x | _ => False end -> now s <= t -> not_honored o s' ->
  exists e, In e (evl s') /\ e_c e = c /\ e_t e == t /\ c_sched (comps s' c) = Fin (e_t e) /\ forall e', In e' (evl s') -> e_c e' = c -> e' = e.
Proof.
  intros s n o s' c f t R W LO E T LE NH. pose proof (reach_p_QI _ _ R) as QQ.
  assert (QQ' : QI s') by (eapply QI_exec; eauto; discriminate).
  assert (FA : exists q, fail_at f s = Some (Fin q) /\ q == t).
  { destruct f as [|[d|]|[x|]|]; try tauto; cbn; eexists; (split; [reflexivity|]); lra. }
  destruct FA as (q & FA & QT).
  assert (L : exists p u cap, limited c (Fin q) p u cap s s').
  { pose proof (ei_sq _ (ki_e _ (qi_k _ QQ))) as SQ. pose proof (qi_r _ QQ) as RR. destruct o; cbn [limit_of] in LO; try discriminate; injection LO as <- <-; cbn [exec] in E.
    - pose proof (wp_run n (ORequest _ _ _ _ _ _ _) _ _ _ _ _ E (request_limit n _ args oneof _ prio urgent cap s _ SQ (proj1 (proj2 (proj2 W))) FA)). cbn in *. eauto.
    - pose proof (wp_run n (OWait _ _ _ _ _ _ _) _ _ _ _ _ E (wait_limit _ args all _ prio urgent cap s _ SQ FA)). cbn in *. eauto.
    - pose proof (wp_run n (OWaitFor _ _ _ _ _ _ _) _ _ _ _ _ E (wait_for_limit _ cond states _ prio urgent cap s _ SQ FA)). cbn in *. eauto.
    - pose proof (wp_run n (OFromStore _ _ _ _ _ _ _ _ _) _ _ _ _ _ E (from_store_limit n _ stores _ key rprio _ fprio urgent cap s _ RR SQ FA)). cbn in *. eauto.
    - pose proof (wp_run n (OToStore _ _ _ _ _ _ _ _ _) _ _ _ _ _ E (to_store_limit n _ stores i rprio p _ fprio urgent cap s _ RR SQ FA)). cbn in *. eauto. }
  destruct L as (p & u & cap & _ & L2 & L3).
  assert (EF : eff (Fin q) s = Fin q).
  { unfold eff. replace (xltb (Fin q) (Fin (now s))) with false; auto. symmetry. cbn. unfold Qltb. apply negb_false_iff, Qle_bool_iff. lra. }
  rewrite EF in *. destruct L3 as (k & _ & I). eexists. split; [exact I|]. split; [reflexivity|]. split; [exact QT|]. split; [exact L2|].
  intros e' I' C'. pose proof (evs_sched c s' _ (ki_e _ (qi_k _ QQ')) I eq_refl) as EV.
  assert (J : In e' (evs c s')) by (unfold evs; rewrite filter_In, Nat.eqb_eq; auto). rewrite EV in J. destruct J as [J|[]]; auto.
Qed.

(** the way in which [o] makes its component wait *)
Definition mode_of (o : op) : mode :=
  match o with OWait _ _ _ _ _ _ _ | OWaitFor _ _ _ _ _ _ _ => MWait | OFromStore _ _ _ _ _ _ _ _ _ => MFrom | OToStore _ _ _ _ _ _ _ _ _ => MTo | _ => MReq end.
(** c is still waiting for what it has asked with [o] *)
Definition still_waiting (o : op) (c : nat) (s : env) : Prop := ~ done (mode_of o) (comps s c).
Lemma not_honored_waiting : forall o s c f, limit_of o = Some (c, f) -> (not_honored o s <-> still_waiting o c s).
Proof. intros o s c f L. destruct o; cbn in L; try discriminate; injection L as <- _; unfold still_waiting; cbn; tauto. Qed.
Lemma waits_nil : forall o c f s, limit_of o = Some (c, f) -> not_honored o s -> g (fld_of (mode_of o)) (comps s c) <> [].
Proof.
  intros o c f s L N. destruct o; cbn in L; try discriminate; injection L as <- _; cbn in *; auto; intros E; apply N.
  - destruct (c_requests (comps s c0)); auto; discriminate.
  - destruct (c_waits (comps s c0)); auto; discriminate.
  - destruct (c_waits (comps s c0)); auto; discriminate.
Qed.
(** c asks with a limit t and has to wait; whatever happens then, as long as no call is directed at c itself: when c becomes current without having
    been honored, then the time is t, failed() is true, c is in no queue of waiting components and nothing has been claimed or released by that *)
Theorem C16_history : forall s n o s1 c f t s2 n2 s3, reachable s -> wf s o -> limit_of o = Some (c, f) -> exec n o s = (s1, Ok tt) ->
  match f with SDur (Fin d) => t == now s + d | STill (Fin x) => t - off s == x | _ => False end -> now s <= t -> not_honored o s1 ->
  c_retry (comps s1 c) = [] -> idle_of c s1 s2 -> reachable s2 -> wf s2 OStep -> exec n2 OStep s2 = (s3, Ok tt) -> cur s3 = c -> still_waiting o c s2 ->
  now s3 == t /\ c_failed (comps s3 c) = true /\ ~ waiting s3 c /\
  (forall x, ~ In c (map fst (qs s3 (QReq x))) /\ ~ In c (map fst (qs s3 (QWait x))) /\ ~ In c (map fst (qs s3 (QFrom x))) /\ ~ In c (map fst (qs s3 (QTo x)))) /\
  (forall d, c_claims (comps s3 d) = c_claims (comps s2 d)) /\
  (forall r, r_claimed (rsc s3 r) = r_claimed (rsc s2 r) /\ r_cap (rsc s3 r) = r_cap (rsc s2 r) /\ qs s3 (QClaim r) = qs s2 (QClaim r)).
Proof.
  intros s n o s1 c f t s2 n2 s3 R W LO E T LE NH RT ID R2 W2 E2 CC SW.
  destruct (C16_booked s n o s1 c f t R W LO E T LE NH) as (e & IE & EC & ET & SC & UN).
  assert (R1 : reachable s1).
  { destruct R as (t0 & RR & sv & kc & hp & y & d & F & H). exists t0, RR, sv, kc, hp, y, d. split; auto. eapply rpp_step; eauto. discriminate. }
  assert (MD : mode_of o <> MStill) by (destruct o; discriminate). assert (MH : mode_of o <> MHold) by (destruct o; discriminate).
  assert (SQ : Seqs s1) by (apply started_Seqs, reach_started, reach_t_reach; eapply reach_p_t; exact R1).
  pose proof (reach_p_QI _ _ R1) as QQ. pose proof (reach_t_PI _ (reach_p_t _ _ R1)) as [_ SB1].
  assert (NQ1 : NQm (mode_of o) c s1) by (apply one_NQm; [apply QQ | eapply reach_p_one; exact R1 | eapply waits_nil; eauto]).
  assert (WT1 : waiting s1 c) by (destruct o; cbn in LO; try discriminate; injection LO as <- _; cbn in NH; unfold waiting; auto).
  assert (NL : ~ LS s1 c).
  { intros L. destruct (sb_st _ SB1 c L) as (ST & _).
    assert (I : idle (c_status (comps s1 c))) by (rewrite ST; unfold idle; tauto).
    destruct (free_idle s1 c (ki_l _ (qi_k _ QQ)) (qi_r _ QQ) I) as (F1 & F2 & F3 & F4). unfold noreq in F1. destruct WT1 as [X|[X|[X|X]]]; congruence. }
  destruct (idle_of_wait (mode_of o) c s1 s2 MD MH ID SQ NQ1 NL) as (_ & [(_ & KP)|DN]); [|contradiction].
  pose proof (keep_fields _ _ _ KP) as KF. cbv zeta in KF. destruct KF as (K1 & K2 & _ & _ & _ & _ & K3 & K4 & K5 & K6 & _ & _ & _ & _ & K7).
  assert (WT2 : waiting s2 (cur s3)) by (rewrite CC; unfold waiting in *; rewrite K3, K4, K5, K6; auto).
  assert (RT2 : c_retry (comps s2 (cur s3)) = []) by (rewrite CC, K7; auto).
  destruct (C16_timeout s2 n2 s3 R2 W2 E2 WT2 RT2) as (P1 & _ & P3 & P4 & (e2 & _ & _ & P5 & P6) & P7 & P8). rewrite CC in *.
  split; [|split; [auto|]; split; [auto|]; split; [auto|]; split; auto].
  rewrite P5. rewrite K2, SC in P6. injection P6 as P6. rewrite <- P6. auto.
Qed.

(** ** C17 *)
(** the process of c ends, or c is cancelled *)
Definition ends (s : env) (o : op) (c : nat) : Prop := o = OCancel c \/ (o = OEnd /\ cur s = c).
(** claimed quantity of r that is not claimed by any component (the residue of releases that left less than 1e-8: see C14) *)
Definition residue (s : env) (r : nat) : Q := r_claimed (rsc s r) - total s r.
Definition nq1 (c : nat) (l : lab) : Prop := match l with LQuiet None | LGrant _ => True | LFree d _ v q0 false => d = c /\ q0 = v | _ => False end.
Lemma w_release_all : forall n c ks s, GI none s -> c_requests (comps s c) = [] -> NoDup ks ->
  wp (mfor ks (fun r => release1 n c r None false)) (fun _ s' => GI none s' /\ c_requests (comps s' c) = [] /\
     forall x, alookup x (c_claims (comps s' c)) = if memb x ks then None else alookup x (c_claims (comps s c))) (fun _ _ => True) s.
Proof.
  intros n c. induction ks as [|r t IH]; intros s G E ND; cbn [mfor]; [apply wp_ret; auto|]. inversion ND as [|? ? N1 N2]; subst.
  apply wp_bind. eapply wp_of_eq; [apply release1_split|]. apply wp_bind.
  eapply wp_conseq; [apply w_release1; auto | cbv beta | auto]. intros _ s1 (G1 & v & A & V).
  destruct (gv_self _ _ _ _ _ _ V) as (cl & C1 & L1). cbn [negb when].
  assert (F : frames (RP nq) (r_try n r)) by (apply rp_r_try; [exact Logic.I | intros; exact Logic.I]).
  eapply wp_conseq; [apply (frames_wp _ _ _ _ F) | cbv beta | auto]. intros _ s2 K. destruct (K G1) as (G2 & PA).
  destruct (apart_nil nq c s1 s2) as (E2 & C2); auto; [intros [[]| | | | |]; cbn; try tauto; discriminate | rewrite C1; auto |].
  eapply wp_conseq; [apply IH; auto | cbv beta | auto]. intros _ s3 (G3 & E3 & L3). split; auto. split; auto. intros x. rewrite L3, C2, C1. cbn [c_claims w_claims].
  rewrite L1. cbn [memb existsb taken_back]. assert (FU : full v v = true) by (unfold full; apply Qltb_iff; unfold eps; lra). rewrite FU.
  change (existsb (Nat.eqb x) t) with (memb x t). destruct (memb x t) eqn:M; [destruct (x =? r)%nat; auto|]. destruct (x =? r)%nat; auto.
Qed.
Lemma alookup_nil : forall A (l : list (nat * A)), (forall x, alookup x l = None) -> l = [].
Proof. intros A [|(x, y) t] H; auto. specialize (H x). cbn in H. rewrite Nat.eqb_refl in H. discriminate. Qed.
Lemma ends_path : forall s o c s', QI s -> ends s o c -> forall n, exec n o s = (s', Ok tt) -> rpath (nq1 c) s s'.
Proof.
  intros s o c s' QQ H n E.
  assert (HQ : nq1 c (LQuiet None)) by exact Logic.I. assert (HG : forall d, nq1 c (LGrant d)) by (intros; exact Logic.I).
  destruct H as [->|(-> & <-)]; cbn [exec] in E.
  - destruct (rp_cancel (nq1 c) HQ HG n c (fun r v => conj eq_refl eq_refl) s (qi_g _ QQ)) as (_ & K). rewrite E in K. exact K.
  - destruct (rp_terminate (nq1 (cur s)) HQ HG n (cur s) (fun r v => conj eq_refl eq_refl) s (qi_g _ QQ)) as (_ & K).
    change (terminate n (cur s) s = (s', Ok tt)) in E. rewrite E in K. exact K.
Qed.
Theorem C17_nothing_left : forall s o c n s', reachable s -> wf s o -> ends s o c -> c_status (comps s c) <> Data -> exec n o s = (s', Ok tt) ->
  c_claims (comps s' c) = [] /\ (forall r, ~ In c (map fst (qs s' (QClaim r)))) /\ ~ waiting s' c /\ c_status (comps s' c) = Data.
Proof.
  intros s o c n s' R W H ND E. pose proof (reach_p_QI _ _ R) as QQ.
  assert (QQ' : QI s') by (eapply QI_exec; eauto; discriminate).
  assert (K : c_claims (comps s' c) = [] /\ c_status (comps s' c) = Data).
  { assert (REL : forall s1 (rest : M unit), GI none s1 -> c_requests (comps s1 c) = [] ->
       (forall s2, c_claims (comps s2 c) = [] -> wp rest (fun _ z => c_claims (comps z c) = [] /\ c_status (comps z c) = Data) (fun _ _ => True) s2) ->
       wp (cl <- get (fun s => c_claims (comps s c)) ;; mfor (keys cl) (fun r => release1 n c r None false) ;;; rest)
          (fun _ z => c_claims (comps z c) = [] /\ c_status (comps z c) = Data) (fun _ _ => True) s1).
    { intros s1 rest G1 E1 K. apply wp_bind, wp_get, wp_bind.
      eapply wp_conseq; [apply w_release_all; auto; apply (gi_ks _ _ G1 c) | cbv beta | auto]. intros _ s2 (_ & _ & L). apply K. apply alookup_nil.
      intros x. rewrite L. destruct (memb x (keys (c_claims (comps s1 c)))) eqn:M; auto. apply memb_false_iff in M. destruct (alookup x _) eqn:A; auto.
      destruct M. eapply alookup_Some_key; eauto. }
    destruct H as [->|(-> & <-)]; cbn [exec] in E.
    - assert (P : wp (cancel n c) (fun _ z => c_claims (comps z c) = [] /\ c_status (comps z c) = Data) (fun _ _ => True) s).
      { unfold cancel. apply wp_bind, wp_stat. apply wp_if; intros B; [apply steqb_iff in B; contradiction|]. apply wp_bind.
        eapply wp_conseq with (Q := fun _ s1 => GI none s1 /\ c_requests (comps s1 c) = []) (X := fun _ _ => True); [| |auto].
        - apply wp_when; intros B2.
          + assert (F : frames (RG none) (remove c ;;; check_fail c)) by (fgo (RG_po none); auto with gq).
            eapply wp_conseq; [eapply wp_conj; [apply (frames_wp _ _ _ s F) | apply wp_skip with (Q := fun _ z => free c z); intros ? ?; apply w_check_fail_free] | cbv beta | auto].
            intros _ z (A & B3 & _). split; [apply A, QQ | exact B3].
          + split; [apply (qi_g _ QQ)|]. apply negb_false_iff, steqb_iff in B2. apply (ki_l _ (qi_k _ QQ)). rewrite B2. unfold idle; tauto.
        - cbv beta. intros _ s1 (G1 & E1). apply REL; auto. intros s2 C2. apply wp_bind, wp_setc, wp_setc. rewrite !comps_same. auto. }
      unfold wp in P. rewrite E in P. exact P.
    - change (terminate n (cur s) s = (s', Ok tt)) in E.
      assert (P : wp (terminate n (cur s)) (fun _ z => c_claims (comps z (cur s)) = [] /\ c_status (comps z (cur s)) = Data) (fun _ _ => True) s).
      { unfold terminate. apply REL; [apply (qi_g _ QQ) | |].
        - apply (ki_l _ (qi_k _ QQ)). destruct W as (_ & _ & ->). unfold idle; tauto.
        - intros s2 C2. apply wp_bind, wp_setc, wp_bind, wp_setc, wp_bind, wp_setc, wp_setc. rewrite !comps_same. auto. }
      unfold wp in P. rewrite E in P. exact P. }
  destruct K as (K1 & K2). split; auto. split.
  { intros r I. apply (GI_keys s' c r (qi_g _ QQ')) in I. rewrite K1 in I. apply I. reflexivity. }
  split; auto. destruct (free_idle s' c (ki_l _ (qi_k _ QQ')) (qi_r _ QQ')) as (F1 & F2 & F3 & F4); [rewrite K2; unfold idle; tauto|].
  unfold noreq in F1. intros [X|[X|[X|X]]]; congruence.
Qed.
(** the claimed quantities go down by exactly what c had: claimed quantity and claims change together (a residue may disappear), and
    the claims of the others only change by what they asked for *)
Lemma residue_step : forall c l s s' r, nq1 c l -> lstep l s s' -> GI none s -> r_anon (rsc s r) = false ->
  residue s' r == residue s r \/ residue s' r == 0.
Proof.
  intros c l s s' r N H G AN. unfold residue.
  assert (OT : (match l with LGrant _ | LFree _ _ _ _ _ => False | _ => True end) -> r_claimed (rsc s' r) - total s' r == r_claimed (rsc s r) - total s r).
  { intros K. destruct (lstep_other _ _ _ H K r AN) as (A & _ & B). rewrite A, B. lra. }
  destruct l as [[]| |d|d x v q0 []| |]; cbn in N; try tauto.
  - destruct H as (_ & _ & H). left. destruct (total_grant _ _ _ r G H AN) as (A & _). lra.
  - destruct N as (-> & ->). destruct H as (A & _ & _ & H). destruct (Nat.eq_dec r x) as [->|D].
    + pose proof (total_gave _ _ _ _ _ _ G A H) as T. assert (FU : full v v = true) by (unfold full; apply Qltb_iff; unfold eps; lra). rewrite FU in T.
      pose proof (gv_rsc _ _ _ _ _ _ H x) as RS. rewrite Nat.eqb_refl, FU in RS. rewrite RS. cbn [r_claimed r_tally w_claimed andb].
      destruct (nonnil (adel c (qs s (QClaim x)))) eqn:NN; cbn [negb]; [left; lra|]. right.
      pose proof (gv_q _ _ _ _ _ _ H (QClaim x)) as QC. destruct (qeqb_spec (QClaim x) (QClaim x)); [|congruence]. rewrite FU in QC.
      apply nonnil_nil in NN. unfold total. rewrite QC, NN. cbn. lra.
    + destruct (gave_other _ _ _ _ _ _ r H D) as (T & _ & RS). rewrite RS. left. lra.
Qed.
Theorem C17_exact : forall s o c n s', reachable s -> ends s o c -> exec n o s = (s', Ok tt) -> wf s o ->
  (forall r, r_anon (rsc s r) = false -> residue s' r == residue s r \/ residue s' r == 0) /\
  (forall d, d <> c -> outcome s d s').
Proof.
  intros s o c n s' R H E W. pose proof (reach_p_QI _ _ R) as QQ. pose proof (ends_path _ _ _ _ QQ H _ E) as P. split.
  - intros r. clear - P. induction P as [s|l s s1 s2 L G S G1 P IH]; intros AN; [left; lra|].
    rewrite <- (kind_anon _ _ (lstep_kind _ _ _ r S)) in AN. destruct (IH AN) as [E|E]; auto. rewrite E.
    apply (residue_step c l); auto. rewrite <- (kind_anon _ _ (lstep_kind _ _ _ r S)). auto.
  - intros d D. eapply outcome_path; [|exact P]. intros [[]| | |x ? ? ? []| |]; cbn; try tauto; [discriminate|]. intros (-> & _). auto.
Qed.
(** if no request is waiting, the claimed quantity goes down by the claim of c (and is 0 if nobody is left) *)
Theorem C17_released : forall s o c n s' r, reachable s -> ends s o c -> exec n o s = (s', Ok tt) -> wf s o -> c_status (comps s c) <> Data ->
  (forall d, c_requests (comps s d) = []) -> r_anon (rsc s r) = false ->
  r_claimed (rsc s' r) == r_claimed (rsc s r) - claim_of s r c \/ (qs s' (QClaim r) = [] /\ r_claimed (rsc s' r) == 0).
Proof.
  intros s o c n s' r R H E W ND NR AN. pose proof (reach_p_QI _ _ R) as QQ. pose proof (ends_path _ _ _ _ QQ H _ E) as P.
  destruct (C17_nothing_left s o c n s' R W H ND E) as (NL & _).
  assert (K : r_claimed (rsc s' r) - claim_of s' r c == r_claimed (rsc s r) - claim_of s r c \/ (qs s' (QClaim r) = [] /\ r_claimed (rsc s' r) == 0)).
  { clear - P NR AN. induction P as [s|l s s1 s2 L G S G1 P IH]; [left; lra|].
    assert (NR1 : forall d, c_requests (comps s1 d) = []).
    { intros d. destruct l as [[]| |x|x ? ? ? []| |]; cbn in L; try tauto.
      - destruct (qt_rq _ _ S d) as [-> | ->]; auto.
      - destruct S as (_ & NG & _). destruct NG. apply grant_nil; auto.
      - destruct L as (-> & ->). destruct S as (_ & _ & _ & S). destruct (Nat.eq_dec d c) as [->|D].
        + destruct (gv_self _ _ _ _ _ _ S) as (cl & -> & _). cbn. auto.
        + rewrite (gv_oth _ _ _ _ _ _ S) by auto. auto. }
    assert (AN1 : r_anon (rsc s1 r) = false) by (rewrite (kind_anon _ _ (lstep_kind _ _ _ r S)); auto).
    destruct (IH NR1 AN1) as [E|E]; auto.
    assert (K : r_claimed (rsc s1 r) - claim_of s1 r c == r_claimed (rsc s r) - claim_of s r c \/ (qs s1 (QClaim r) = [] /\ r_claimed (rsc s1 r) == 0 /\ claim_of s1 r c == 0)).
    { destruct l as [[]| |x|x y v q0 []| |]; cbn in L; try tauto.
      - left. destruct (lstep_other _ _ _ S Logic.I r AN) as (_ & _ & ->). unfold claim_of. rewrite (qt_cl _ _ S). lra.
      - destruct S as (_ & NG & _). destruct NG. apply grant_nil; auto.
      - destruct L as (-> & ->). destruct S as (A & _ & _ & S). assert (FU : full v v = true) by (unfold full; apply Qltb_iff; unfold eps; lra).
        destruct (gv_self _ _ _ _ _ _ S) as (cl & E1 & L1). specialize (L1 r). rewrite FU in L1. unfold claim_of. rewrite E1. cbn [c_claims w_claims]. rewrite L1.
        pose proof (gv_rsc _ _ _ _ _ _ S r) as RS. pose proof (gv_q _ _ _ _ _ _ S (QClaim r)) as QC. rewrite FU in *.
        destruct (Nat.eqb_spec r y) as [->|D].
        + rewrite A, RS. cbn [r_claimed r_tally w_claimed andb]. destruct (qeqb_spec (QClaim y) (QClaim y)); [|congruence].
          destruct (nonnil (adel c (qs s (QClaim y)))) eqn:NN; cbn [negb]; [left; lra|]. right. rewrite QC. apply nonnil_nil in NN. rewrite NN. repeat split; lra.
        + rewrite RS. left. lra. }
    destruct K as [K|(K1 & K2 & K3)]; [left; lra|].
    (* nobody claims r any more *)
    clear - K1 K2 P NR1 AN1 E K3. right.
    assert (K : qs s2 (QClaim r) = [] /\ r_claimed (rsc s2 r) == r_claimed (rsc s1 r)).
    { clear - K1 P NR1 AN1. induction P as [s|l s s1 s2 L G S G1 P IH]; [split; auto; lra|].
      assert (NR2 : forall d, c_requests (comps s1 d) = []).
      { intros d. destruct l as [[]| |x|x ? ? ? []| |]; cbn in L; try tauto.
        - destruct (qt_rq _ _ S d) as [-> | ->]; auto.
        - destruct S as (_ & NG & _). destruct NG. apply grant_nil; auto.
        - destruct L as (-> & ->). destruct S as (_ & _ & _ & S). destruct (Nat.eq_dec d c) as [->|D].
          + destruct (gv_self _ _ _ _ _ _ S) as (cl & -> & _). cbn. auto.
          + rewrite (gv_oth _ _ _ _ _ _ S) by auto. auto. }
      assert (AN2 : r_anon (rsc s1 r) = false) by (rewrite (kind_anon _ _ (lstep_kind _ _ _ r S)); auto).
      destruct l as [[]| |x|x y v q0 []| |]; cbn in L; try tauto.
      - destruct (lstep_other _ _ _ S Logic.I r AN1) as (_ & A & B). rewrite <- B. apply IH; auto. congruence.
      - destruct S as (_ & NG & _). destruct NG. apply grant_nil; auto.
      - destruct L as (-> & ->). destruct S as (A & _ & _ & S). destruct (Nat.eq_dec r y) as [->|D].
        + exfalso. assert (M : mem s (QClaim y) c) by (apply GI_keys; [auto | congruence]). unfold mem in M. rewrite K1 in M. destruct M.
        + destruct (gave_other _ _ _ _ _ _ r S D) as (_ & B & RS). rewrite <- RS. apply IH; auto. congruence. }
    destruct K as (A & B). split; auto. lra. }
  destruct K as [K|K]; auto. left. unfold claim_of at 1 in K. rewrite NL in K. cbn in K. lra.
Qed.

(** *** Examples *)
(** as [busy], but 2 gives up after 7: at time 7, 2 has failed *)
Definition busy7 : list op := [mk 1; mk 2; mk 3; go; OStep; req 1 [(0%nat, 3, Fin 0)]; OStep].
Definition o7 : op := ORequest 2 [(0%nat, 4, Fin 0); (3%nat, 1, Fin 0)] false (SDur (Fin 7)) (Fin 0) false None.
Definition rest7 : list op := [OStep; OHold 3 (SDur (Fin 2)) (Fin 0) false 0 None; OStep; OHold 1 (SDur (Fin 50)) (Fin 0) false 0 None; OStep; OPassivate 3].
Example C16_case : let s := stp any envr busy7 in let s1 := fst (exec 19 o7 s) in let s2 := stp any envr (busy7 ++ o7 :: rest7) in let s3 := fst (exec 19 OStep s2) in
  reachable s /\ wf s o7 /\ exec 19 o7 s = (s1, Ok tt) /\ not_honored o7 s1 /\ reachable s2 /\ wf s2 OStep /\ exec 19 OStep s2 = (s3, Ok tt) /\
  cur s3 = 2%nat /\ waiting s2 2 /\ c_retry (comps s2 2) = [] /\ now s2 == 2 /\ now s3 == 7 /\ c_failed (comps s2 2) = false.
Proof.
  intros s s1 s2 s3. split; [apply stp_reach; [auto | apply rs0_fresh | vm_compute; reflexivity]|].
  split; [apply wfb_wf; vm_compute; reflexivity|].
  split; [rewrite (surjective_pairing (exec 19 o7 s)); f_equal; vm_compute; reflexivity|]. split; [vm_compute; discriminate|].
  split; [apply stp_reach; [auto | apply rs0_fresh | vm_compute; reflexivity]|].
  split; [apply wfb_wf; vm_compute; reflexivity|].
  split; [rewrite (surjective_pairing (exec 19 OStep s2)); f_equal; vm_compute; reflexivity|].
  split; [vm_compute; reflexivity|]. split; [left; vm_compute; discriminate|]. repeat (split; [vm_compute; reflexivity|]). vm_compute; reflexivity.
Qed.
Fixpoint idle_script (l : list op) (s : env) : env := match l with [] => s | o :: t => idle_script t (fst (exec 19 o s)) end.
Lemma idle_script_ok : forall x l s, (fix ok l s := match l with [] => True | o :: t => ~ directed x s o /\ (o = OStep -> cur (fst (exec 19 o s)) <> x) /\ ok t (fst (exec 19 o s)) end) l s ->
  idle_of x s (idle_script l s).
Proof.
  intros x l s H. assert (G : forall l s0 s, idle_of x s0 s -> (fix ok l s := match l with [] => True | o :: t => ~ directed x s o /\ (o = OStep -> cur (fst (exec 19 o s)) <> x) /\ ok t (fst (exec 19 o s)) end) l s -> idle_of x s0 (idle_script l s)).
  { induction l0 as [|o t IH]; intros s0 s1 I K; cbn [idle_script]; auto. destruct K as (K1 & K2 & K3). apply IH; auto.
    eapply io_step with (n := 19%nat) (o := o); [exact I | apply surjective_pairing | auto | auto]. }
  apply G; auto. apply io_refl.
Qed.
Lemma idle_script_app : forall a b s, idle_script (a ++ b) s = idle_script b (idle_script a s).
Proof. induction a as [|o a IH]; intros b s; cbn; auto. Qed.
Lemma idle_script_cons : forall o t s, idle_script (o :: t) s = idle_script t (fst (exec 19 o s)). Proof. reflexivity. Qed.
Lemma stp_idle : forall l s, okp any s l = true -> stp any s l = idle_script l s.
Proof.
  unfold okp, stp. induction l as [|o t IH]; intros s H; auto. cbn [script_p idle_script any] in *. destruct (wfb s o); cbn [andb] in *; try discriminate.
  destruct (exec 19 o s) as [s1 [a|e]] eqn:E; try discriminate. cbn [any andb fst] in *. rewrite <- (IH s1) by exact H. destruct (script_p any 19 t s1); [reflexivity | discriminate].
Qed.
(** 2 has to wait in s1; 3 and 1 go on; 2 becomes current at 7 *)
Example C16_history_case : let s1 := fst (exec 19 o7 (stp any envr busy7)) in let s2 := stp any envr (busy7 ++ o7 :: rest7) in
  limit_of o7 = Some (2%nat, SDur (Fin 7)) /\ c_retry (comps s1 2) = [] /\ idle_of 2 s1 s2 /\ still_waiting o7 2 s2.
Proof.
  intros s1 s2. split; [reflexivity|]. split; [vm_compute; reflexivity|]. split; [|vm_compute; discriminate].
  assert (E : s2 = idle_script rest7 s1).
  { unfold s2, s1. rewrite (stp_idle busy7) by (vm_compute; reflexivity). rewrite (stp_idle (busy7 ++ o7 :: rest7)) by (vm_compute; reflexivity).
    rewrite idle_script_app. apply idle_script_cons. }
  rewrite E. apply idle_script_ok.
  repeat (split; [clear; cbn [directed]; first [tauto | discriminate]|]; split; [intros _; vm_compute; discriminate|]). exact Logic.I.
Qed.
(** 1 and 3 claim 3 and 2 of resource 0, 2 is waiting; 1 is cancelled: 2 of resource 0 are still claimed *)
Example C17_case : let s := stp any envr busy in let s' := fst (exec 19 (OCancel 1) s) in
  reachable s /\ wf s (OCancel 1) /\ ends s (OCancel 1) 1 /\ c_status (comps s 1) <> Data /\ exec 19 (OCancel 1) s = (s', Ok tt) /\
  c_claims (comps s 1) = [(0%nat, 3)] /\ r_claimed (rsc s 0) == 5 /\ r_claimed (rsc s' 0) == 2 /\ r_anon (rsc s 0) = false.
Proof.
  intros s s'. split; [apply stp_reach; [auto | apply rs0_fresh | vm_compute; reflexivity]|].
  split; [apply wfb_wf; vm_compute; reflexivity|]. split; [left; reflexivity|]. split; [vm_compute; discriminate|].
  split; [rewrite (surjective_pairing (exec 19 (OCancel 1) s)); f_equal; vm_compute; reflexivity|]. vm_compute. auto.
Qed.
(** the same without 2 *)
Example C17_case_released : let s := stp any envr (busy ++ [OCancel 2]) in let s' := fst (exec 19 (OCancel 1) s) in
  reachable s /\ wf s (OCancel 1) /\ ends s (OCancel 1) 1 /\ c_status (comps s 1) <> Data /\ exec 19 (OCancel 1) s = (s', Ok tt) /\
  (forall d, (d < 5)%nat -> c_requests (comps s d) = []) /\ r_claimed (rsc s' 0) == 2.
Proof.
  intros s s'. split; [apply stp_reach; [auto | apply rs0_fresh | vm_compute; reflexivity]|].
  split; [apply wfb_wf; vm_compute; reflexivity|]. split; [left; reflexivity|]. split; [vm_compute; discriminate|].
  split; [rewrite (surjective_pairing (exec 19 (OCancel 1) s)); f_equal; vm_compute; reflexivity|].
  split; [intros d L; do 5 (destruct d as [|d]; [vm_compute; reflexivity|]); lia | vm_compute; reflexivity].
Qed.

Print Assumptions C15_all_or_nothing.
Print Assumptions C15_decision.
Print Assumptions C15_request.
Print Assumptions C16_timeout.
Print Assumptions C16_booked.
Print Assumptions C16_history.
Print Assumptions C17_nothing_left.
Print Assumptions C17_exact.
Print Assumptions C17_released.
