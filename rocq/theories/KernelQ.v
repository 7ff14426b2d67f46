(** Registrations: a component is in the requesters of a resource iff it has a request for it, in the
    claimers iff it has a claim, in the waiters of a state iff it has a wait for it, in the requesters of a
    store iff it has it in _from_stores / _to_stores; no queue holds a component twice. *)
From Coq Require Import QArith Lqa List Bool Arith ZArith Lia.
From Verif Require Import Base Kernel Wp KernelE KernelL KernelX KernelT KernelU KernelR.
Import ListNotations.
Open Scope Q_scope.
Local Arguments keys : simpl never.

Definition reg (q : qref) : bool := match q with QStore _ => false | _ => true end.
Definition lst (x : comp) (q : qref) : Prop :=
  match q with
  | QReq r => In r (keys (c_requests x))
  | QClaim r => In r (keys (c_claims x))
  | QWait t => In t (map fst (c_waits x))
  | QFrom k => In k (c_from x)
  | QTo k => In k (c_to x)
  | QStore _ => False
  end.
Definition okks (x : comp) : Prop := NoDup (keys (c_requests x)) /\ NoDup (keys (c_claims x)) /\ NoDup (c_from x) /\ NoDup (c_to x).
(** [W]: registrations that have been withdrawn from the queue but not yet from the component *)
Record GI (W : nat -> qref -> Prop) (s : env) : Prop := {
  gi_mem : forall q d, reg q = true -> (mem s q d <-> lst (comps s d) q /\ ~ W d q);
  gi_nd : forall q, NoDup (map fst (qs s q));
  gi_ks : forall d, okks (comps s d) }.
Definition none : nat -> qref -> Prop := fun _ _ => False.
Definition plus (W : nat -> qref -> Prop) (c : nat) (q : qref) : nat -> qref -> Prop := fun d q' => W d q' \/ (d = c /\ q' = q).
Definition lists (x : comp) := (keys (c_requests x), keys (c_claims x), map fst (c_waits x), c_from x, c_to x).

Lemma lists_lst : forall x y, lists x = lists y -> forall q, lst x q <-> lst y q.
Proof. unfold lists. intros x y E q. injection E as E1 E2 E3 E4 E5. destruct q; cbn; try tauto; rewrite ?E1, ?E2, ?E3, ?E4, ?E5; tauto. Qed.
Lemma lists_okks : forall x y, lists x = lists y -> okks y -> okks x.
Proof. unfold lists, okks. intros x y E. injection E as E1 E2 E3 E4 E5. rewrite E1, E2, E4, E5. auto. Qed.
Lemma GI_same : forall W s s', comps s' = comps s -> qs s' = qs s -> GI W s -> GI W s'.
Proof. intros W s s' E1 E2 [A B C]. constructor; unfold mem in *; rewrite ?E1, ?E2; auto. Qed.
Lemma GI_set : forall W W' c f s, GI W s ->
  (forall q, reg q = true -> (lst (f (comps s c)) q /\ ~ W' c q <-> lst (comps s c) q /\ ~ W c q)) ->
  (forall d q, d <> c -> (W' d q <-> W d q)) -> okks (f (comps s c)) -> GI W' (m_comp c f s).
Proof.
  intros W W' c f s [A B C] H1 H2 H3. constructor; auto.
  - intros q d Q. change (mem (m_comp c f s) q d) with (mem s q d). rewrite A by auto.
    destruct (Nat.eq_dec d c) as [->|N]; [rewrite comps_same; rewrite H1 by auto; tauto|].
    rewrite comps_diff by auto. rewrite (H2 d q N). tauto.
  - intros d. destruct (Nat.eq_dec d c) as [->|N]; [rewrite comps_same; auto | rewrite comps_diff by auto; auto].
Qed.
Lemma GI_comp : forall W c f s, lists (f (comps s c)) = lists (comps s c) -> GI W s -> GI W (m_comp c f s).
Proof.
  intros W c f s E H. apply GI_set with (W := W); auto; try tauto.
  - intros q _. rewrite (lists_lst _ _ E). tauto.
  - eapply lists_okks; [exact E | apply (gi_ks _ _ H)].
Qed.
Lemma GI_ext : forall W W' s, (forall d q, reg q = true -> lst (comps s d) q -> (W d q <-> W' d q)) -> GI W s -> GI W' s.
Proof.
  intros W W' s E [A B C]. constructor; auto. intros q d Q. rewrite A by auto. split; intros (I & K); split; auto; rewrite (E d q Q I) in *; auto.
Qed.
Lemma nd_m_q : forall q f s, NoDup (map fst (f (qs s q))) -> (forall q, NoDup (map fst (qs s q))) -> forall q', NoDup (map fst (qs (m_q q f s) q')).
Proof. intros q f s H K q'. rewrite qs_m_q. destruct (qeqb q' q); auto. Qed.
Lemma nd_adel : forall c (l : list (nat * xq)), NoDup (map fst l) -> NoDup (map fst (adel c l)).
Proof. intros. apply NoDup_adel; auto. Qed.
Lemma nd_ins_tail : forall c p l, ~ In c (map fst l) -> NoDup (map fst l) -> NoDup (map fst (ins_tail c p l)).
Proof.
  induction l as [|y t IH]; intros N D; cbn [ins_tail]. { constructor; [auto | constructor]. }
  destruct (forallb _ _); [constructor; auto|]. cbn in *. inversion D; subst. constructor; [|apply IH; auto].
  rewrite in_ins_tail. intros [E|E]; auto.
Qed.
Lemma nd_ins_sorted : forall c p l, ~ In c (map fst l) -> NoDup (map fst l) -> NoDup (map fst (ins_sorted c p l)).
Proof.
  intros c p l N D. unfold ins_sorted. destruct l as [|y t]. { constructor; [auto | constructor]. }
  destruct (xltb p (snd y)); [constructor; auto | apply nd_ins_tail; auto].
Qed.
Lemma inq_iff : forall c l, inq c l = true <-> In c (map fst l). Proof. intros. apply memb_iff. Qed.
Lemma inq_false : forall c l, inq c l = false <-> ~ In c (map fst l). Proof. intros. apply memb_false_iff. Qed.
Lemma GI_leave : forall W c q s, reg q = true -> GI W s -> GI (plus W c q) (m_q q (adel c) s).
Proof.
  intros W c q s Q [A B C]. constructor; auto.
  - intros q' d Q'. unfold mem. rewrite qs_m_q. unfold plus. cbn [comps m_q s_qs]. specialize (A q' d Q').
    destruct (qeqb_spec q' q) as [->|N].
    + change (In d (keys (adel c (qs s q))) <-> lst (comps s d) q /\ ~ (W d q \/ d = c /\ q = q)).
      rewrite keys_adel_in. unfold mem in A. unfold keys. rewrite A. intuition.
    + unfold mem in A. rewrite A. intuition.
  - apply nd_m_q; auto. apply nd_adel; auto.
Qed.
Lemma GI_enter : forall W c q p s, reg q = true -> GI (plus W c q) s -> lst (comps s c) q -> ~ W c q -> GI W (m_q q (ins_sorted c p) s).
Proof.
  intros W c q p s Q [A B C] L NW.
  assert (NM : ~ In c (map fst (qs s q))). { intros I. apply (A q c Q) in I. destruct I as (_ & I). apply I. right. auto. }
  constructor; auto.
  - intros q' d Q'. unfold mem. rewrite qs_m_q. cbn [comps m_q s_qs]. specialize (A q' d Q'). unfold mem, plus in A.
    destruct (qeqb_spec q' q) as [->|N].
    + rewrite in_ins_sorted. rewrite A. destruct (Nat.eq_dec d c) as [->|ND]; intuition.
    + rewrite A. intuition congruence.
  - apply nd_m_q; auto. apply nd_ins_sorted; auto.
Qed.
(** a store's own contents do not matter *)
Lemma GI_store : forall W k f s, NoDup (map fst (f (qs s (QStore k)))) -> GI W s -> GI W (m_q (QStore k) f s).
Proof.
  intros W k f s H [A B C]. constructor; auto; [|apply nd_m_q; auto].
  intros q d Q. unfold mem. rewrite qs_m_q. destruct (qeqb_spec q (QStore k)) as [->|]; [discriminate|]. apply A; auto.
Qed.

Definition RG (W : nat -> qref -> Prop) (s s' : env) : Prop := GI W s -> GI W s'.
Lemma RG_po : forall W, preorder (RG W). Proof. constructor; unfold RG; auto. Qed.
Lemma RG_comp : forall W c f s, lists (f (comps s c)) = lists (comps s c) -> RG W s (m_comp c f s).
Proof. intros. intros H0. apply GI_comp; auto. Qed.
Lemma RG_same : forall W s s', comps s' = comps s -> qs s' = qs s -> RG W s s'.
Proof. intros W s s' A B H. eapply GI_same; eauto. Qed.
Ltac fgf := first [ apply RG_same; reflexivity | apply RG_comp; reflexivity ].
Ltac fq W := let P := constr:(RG_po W) in fgo P; try (solve [fgf]).
Lemma gq_q_prio : forall W q c, frames (RG W) (q_prio q c). Proof. intros. unfold q_prio. fq W. Qed.
Lemma gq_remove : forall W c, frames (RG W) (remove c). Proof. intros. unfold remove. fq W. Qed.
Lemma gq_reschedule : forall W c t p u cap, frames (RG W) (reschedule c t p u cap).
Proof. intros. unfold reschedule, push. fq W. Qed.
Lemma gq_check_notdata : forall W c, frames (RG W) (check_notdata c). Proof. intros. unfold check_notdata. fq W. Qed.
Lemma gq_check_notmain : forall W c, frames (RG W) (check_notmain c). Proof. intros. unfold check_notmain. fq W. Qed.
Lemma gq_fail_time : forall W sp, frames (RG W) (fail_time sp). Proof. intros. unfold fail_time. fq W. Qed.
#[export] Hint Resolve gq_q_prio gq_remove gq_reschedule gq_check_notdata gq_check_notmain gq_fail_time : gq.
Lemma w_rg : forall A (m : M A) W (Q : A -> env -> Prop) s,
  frames (RG W) m -> GI W s -> (forall a s', GI W s' -> Q a s') -> wp m Q (fun _ s' => GI W s') s.
Proof. intros A m W Q s F H K. eapply wp_conseq; [apply (frames_wp _ _ m s F) | |]; unfold RG; cbn; intros; auto. Qed.
Lemma RG_intro : forall A W (m : M A), (forall s, GI W s -> wp m (fun _ s' => GI W s') (fun _ s' => GI W s') s) -> frames (RG W) m.
Proof. intros A W m H s K. apply wp_fst. auto. Qed.

(** ** leaving a series of queues *)
Definition plusl (W : nat -> qref -> Prop) (c : nat) (K : nat -> qref) (l : list nat) : nat -> qref -> Prop :=
  fun d q => W d q \/ (d = c /\ exists k, In k l /\ q = K k).
Lemma w_q_leave : forall W q c s (X : exn -> env -> Prop), reg q = true -> GI W s -> lst (comps s c) q -> ~ W c q ->
  wp (q_leave q c) (fun _ s' => GI (plus W c q) s' /\ comps s' = comps s) X s.
Proof.
  intros W q c s X Q H L N. unfold q_leave. apply wp_bind, wp_get.
  assert (I : inq c (qs s q) = true) by (apply inq_iff; apply (gi_mem _ _ H q c Q); auto).
  rewrite I. apply wp_put. split; [apply GI_leave; auto | reflexivity].
Qed.
Lemma w_leave_req : forall W r c s (X : exn -> env -> Prop), GI W s -> lst (comps s c) (QReq r) -> ~ W c (QReq r) ->
  wp (leave_req c r) (fun _ s' => GI (plus W c (QReq r)) s' /\ comps s' = comps s) X s.
Proof.
  intros W r c s X H L N. unfold leave_req. apply wp_bind.
  eapply wp_conseq; [apply w_q_leave with (X := X) (1 := eq_refl) (2 := H); auto | cbv beta | auto].
  intros _ s1 (G & E). apply wp_bind, wp_get, wp_when; intros _; [apply wp_setr|]; split; auto.
  eapply GI_same; [| | exact G]; reflexivity.
Qed.
Lemma w_leave_wait : forall W t c s (X : exn -> env -> Prop), GI W s -> lst (comps s c) (QWait t) ->
  wp (leave_wait c t) (fun _ s' => GI (plus W c (QWait t)) s' /\ comps s' = comps s) X s.
Proof.
  intros W t c s X H L. unfold leave_wait. apply wp_bind, wp_get, wp_when; intros I.
  - apply inq_iff in I. apply (gi_mem _ _ H (QWait t) c eq_refl) in I. destruct I. apply w_q_leave; auto.
  - split; auto. apply inq_false in I. constructor; try apply H.
    intros q d Q. rewrite (gi_mem _ _ H q d Q). unfold plus. split; intros (A & B); split; auto.
    intros [?|(-> & ->)]; auto. apply I. apply (gi_mem _ _ H (QWait t) c eq_refl). auto.
Qed.
Lemma w_leaves : forall (f : nat -> M unit) K c (X : exn -> env -> Prop), (forall k, reg (K k) = true) -> (forall a b, K a = K b -> a = b) ->
  (forall k W s, GI W s -> lst (comps s c) (K k) -> ~ W c (K k) -> wp (f k) (fun _ s' => GI (plus W c (K k)) s' /\ comps s' = comps s) X s) ->
  forall ks W s, NoDup ks -> GI W s -> (forall k, In k ks -> lst (comps s c) (K k) /\ ~ W c (K k)) ->
  wp (mfor ks f) (fun _ s' => GI (plusl W c K ks) s' /\ comps s' = comps s) X s.
Proof.
  intros f K c X RK IK Hf. induction ks as [|k t IH]; intros W s ND H L; cbn [mfor].
  - apply wp_ret. split; auto. eapply GI_ext; [|exact H]. intros d q _ _. unfold plusl. split; auto. intros [?|(_ & k & [] & _)]; auto.
  - inversion ND as [|? ? ND1 ND2]; subst. apply wp_bind.
    eapply wp_conseq; [apply Hf; [exact H | | ]; apply L; left; auto | cbv beta | auto]. intros _ s1 (H1 & E1).
    eapply wp_conseq; [apply (IH _ _ ND2 H1) | cbv beta | auto].
    + intros k' I. rewrite E1. destruct (L k' (or_intror I)). split; auto. intros [?|(_ & E)]; auto. apply IK in E. congruence.
    + intros _ s2 (H2 & E2). split; [|congruence]. eapply GI_ext; [|exact H2]. intros d q _ _. unfold plusl, plus. split.
      * intros [[?|(-> & ->)]|(-> & k' & I & ->)]; auto; right; split; auto; [exists k | exists k']; split; auto; [left | right]; auto.
      * intros [?|(-> & k' & [<-|I] & ->)]; auto. right. split; auto. eauto.
Qed.
(** the same for waits, which may name a state more than once *)
Lemma w_leave_waits : forall c (X : exn -> env -> Prop) ks W s, GI W s -> (forall k, In k ks -> lst (comps s c) (QWait k)) ->
  wp (mfor ks (leave_wait c)) (fun _ s' => GI (plusl W c QWait ks) s' /\ comps s' = comps s) X s.
Proof.
  intros c X. induction ks as [|k t IH]; intros W s H L; cbn [mfor].
  - apply wp_ret. split; auto. eapply GI_ext; [|exact H]. intros d q _ _. unfold plusl. split; auto. intros [?|(_ & k & [] & _)]; auto.
  - apply wp_bind.
    eapply wp_conseq; [apply w_leave_wait with (X := X); [exact H | apply L; left; auto] | cbv beta | auto]. intros _ s1 (H1 & E1).
    eapply wp_conseq; [apply (IH _ _ H1) | cbv beta | auto].
    + intros k' I. rewrite E1. apply (L k' (or_intror I)).
    + intros _ s2 (H2 & E2). split; [|congruence]. eapply GI_ext; [|exact H2]. intros d q _ _. unfold plusl, plus. split.
      * intros [[?|(-> & ->)]|(-> & k' & I & ->)]; auto; right; split; auto; [exists k | exists k']; split; auto; [left | right]; auto.
      * intros [?|(-> & k' & [<-|I] & ->)]; auto. right. split; auto. eauto.
Qed.
Definition clean (W : nat -> qref -> Prop) (c : nat) : Prop := forall q, ~ W c q.
(** then the list is cleared *)
Lemma GI_cleared : forall W c K l f s, clean W c -> GI (plusl W c K l) s ->
  (forall q, reg q = true -> (lst (f (comps s c)) q <-> lst (comps s c) q /\ forall k, In k l -> q <> K k)) ->
  okks (f (comps s c)) -> GI W (m_comp c f s).
Proof.
  intros W c K l f s N H E O. apply GI_set with (W := plusl W c K l); auto.
  - intros q Q. rewrite E by auto. unfold plusl. split.
    + intros ((A & B) & D). split; auto. intros [?|(_ & k & I & ->)]; [auto | exact (B k I eq_refl)].
    + intros (A & B). split; [|apply N]. split; auto. intros k I ->. apply B. right. eauto.
  - intros d q D. unfold plusl. intuition.
Qed.
Lemma clean_none : forall c, clean none c. Proof. intros c q []. Qed.
#[export] Hint Resolve clean_none : gq.

Ltac clr := cbn; split;
  [ let A := fresh in intros A; solve [destruct A | split; [exact A | intros; discriminate]]
  | let A := fresh in let B := fresh in intros (A & B); solve [exact A | exfalso; eapply B; [exact A | reflexivity]] ].
Ltac okk H c := let K := fresh in pose proof (gi_ks _ _ H c) as K; unfold okks in *; cbn; intuition constructor.
Lemma w_check_fail_G : forall W c s (X : exn -> env -> Prop), clean W c -> GI W s -> wp (check_fail c) (fun _ s' => GI W s') X s.
Proof.
  intros W c s X N H. unfold check_fail.
  assert (TL : forall s, GI W s -> GI W (m_comp c (w_failed true) s)) by (intros; apply GI_comp; auto).
  apply wp_bind, wp_get, wp_bind.
  apply wp_conseq with (Q := fun _ s' => GI W s') (X := X); auto.
  { apply wp_when; intros _; auto. apply wp_bind.
    eapply wp_conseq; [apply w_leaves with (K := QReq) (c := c) (W := W) (X := X); auto; try congruence | cbv beta | auto].
    - intros. apply w_leave_req; auto.
    - apply (gi_ks _ _ H c).
    - intros _ s1 (H1 & E1). wgo. apply TL. apply GI_cleared with (2 := H1); auto.
      + intros q Q. rewrite E1. destruct q; clr.
      + rewrite E1. okk H c. }
  intros _ s1 H1. apply wp_bind, wp_get, wp_bind.
  apply wp_conseq with (Q := fun _ s' => GI W s') (X := X); auto.
  { apply wp_when; intros _; auto. apply wp_bind.
    change (fun st => l <- get (fun s => qs s (QWait st)) ;; when (inq c l) (q_leave (QWait st) c)) with (leave_wait c).
    eapply wp_conseq; [apply w_leave_waits with (c := c) (W := W) (X := X); auto | cbv beta | auto].
    intros _ s2 (H2 & E2). wgo. apply TL. apply GI_cleared with (2 := H2); auto.
    - intros q Q. rewrite E2. destruct q; clr.
    - rewrite E2. okk H1 c. }
  intros _ s2 H2. apply wp_bind, wp_get, wp_bind.
  apply wp_conseq with (Q := fun _ s' => GI W s') (X := X); auto.
  { apply wp_when; intros _; auto. apply wp_bind.
    eapply wp_conseq; [apply w_leaves with (K := QFrom) (c := c) (W := W) (X := X); auto; try congruence | cbv beta | auto].
    - intros. apply w_q_leave; auto.
    - apply (gi_ks _ _ H2 c).
    - intros _ s3 (H3 & E3). wgo. apply TL. apply GI_cleared with (2 := H3); auto.
      + intros q Q. rewrite E3. destruct q; clr.
      + rewrite E3. okk H2 c. }
  intros _ s3 H3. apply wp_bind, wp_get.
  apply wp_when; intros _; auto. apply wp_bind.
  eapply wp_conseq; [apply w_leaves with (K := QTo) (c := c) (W := W) (X := X); auto; try congruence | cbv beta | auto].
  - intros. apply w_q_leave; auto.
  - apply (gi_ks _ _ H3 c).
  - intros _ s4 (H4 & E4). wgo. apply TL. apply GI_cleared with (2 := H4); auto.
    + intros q Q. rewrite E4. destruct q; clr.
    + rewrite E4. okk H3 c.
Qed.
Lemma gq_check_fail : forall c, frames (RG none) (check_fail c).
Proof. intros. apply RG_intro. intros. apply w_check_fail_G; auto with gq. Qed.
#[export] Hint Resolve gq_check_fail : gq.
Lemma gq_activate : forall c a d p u pr kr kw cap, frames (RG none) (activate c a d p u pr kr kw cap).
Proof. intros. unfold activate. fq none; auto with gq. Qed.
Lemma gq_create : forall c a d p u sk cap, frames (RG none) (create c a d p u sk cap).
Proof. intros. unfold create. fq none; auto with gq. Qed.
Lemma gq_hold : forall c sp p u i cap, frames (RG none) (hold c sp p u i cap).
Proof. intros. unfold hold. fq none; auto with gq. Qed.
Lemma gq_passivate : forall c, frames (RG none) (passivate c). Proof. intros. unfold passivate. fq none; auto with gq. Qed.
Lemma gq_interrupt : forall c, frames (RG none) (interrupt c). Proof. intros. unfold interrupt. fq none; auto with gq. Qed.
Lemma gq_resume : forall c a p u, frames (RG none) (resume c a p u). Proof. intros. unfold resume. fq none; auto with gq. Qed.
Lemma gq_standby : forall c, frames (RG none) (standby c). Proof. intros. unfold standby. fq none; auto with gq. Qed.
Lemma gq_set_remaining : forall c v p u, frames (RG none) (set_remaining c v p u).
Proof. intros. unfold set_remaining. fq none; auto with gq. Qed.

(** ** claims *)
Lemma keys_aset_same : forall A k (v : A) l, In k (keys l) -> keys (aset k v l) = keys l.
Proof.
  induction l as [|(x, y) t IH]; intros I; unfold keys in *; cbn in *; [tauto|]. destruct (Nat.eqb_spec k x); cbn; [congruence|].
  f_equal. apply IH. intuition congruence.
Qed.
(** claim keeps GI; it raises only if c is not among the requesters *)
Lemma w_claim_G : forall W c r q s, GI W s -> ~ W c (QClaim r) -> 
  wp (claim c r q) (fun _ s' => GI W s' /\ c_requests (comps s' c) = c_requests (comps s c)) (fun _ s' => ~ mem s (QReq r) c) s.
Proof.
  intros W c r q s H NW. unfold claim. apply wp_bind, wp_setr, wp_bind.
  set (s1 := m_rsc r _ s).
  assert (H1 : GI W s1) by (eapply GI_same; [| | exact H]; reflexivity).
  unfold q_prio. apply wp_bind, wp_get.
  change (qs s1 (QReq r)) with (qs s (QReq r)).
  destruct (qprio c (qs s (QReq r))) as [p|] eqn:QP.
  2:{ apply wp_raise. unfold mem. intros I. unfold qprio in QP. apply alookup_None in QP. auto. }
  apply wp_ret. apply wp_bind, wp_get, wp_bind.
  match goal with |- wp (when _ ?m) _ ?XX _ => apply wp_conseq with
    (Q := fun _ s' => GI W s' /\ c_requests (comps s' c) = c_requests (comps s c)) (X := XX); auto end.
  { apply wp_when; intros _; [|auto]. apply wp_bind, wp_setc, wp_bind, wp_get. cbv beta.
    match goal with |- wp _ _ _ ?z => set (s2 := z) end.
    assert (RQ : c_requests (comps s2 c) = c_requests (comps s c)) by (unfold s2; rewrite comps_same; reflexivity).
    assert (OK : okks (comps s2 c)).
    { unfold s2. rewrite comps_same. pose proof (gi_ks _ _ H c). unfold okks in *. cbn. change (comps s1 c) with (comps s c). intuition. apply NoDup_aset; auto. }
    apply wp_when; intros B.
    - apply negb_true_iff in B. unfold q_enter. apply wp_bind, wp_get. rewrite B. apply wp_put. split; [|exact RQ].
      apply GI_enter; auto; [|unfold s2; rewrite comps_same; cbn; apply keys_aset_in; auto].
      apply inq_false in B. assert (NL : ~ lst (comps s c) (QClaim r)).
      { intros L. apply B. apply (gi_mem _ _ H1 (QClaim r) c eq_refl). auto. }
      unfold s2. apply GI_set with (W := W); auto.
      + intros x _. change (comps s1 c) with (comps s c). unfold plus. destruct x; cbn in *; try (intuition congruence).
        rewrite keys_aset_in. destruct (Nat.eq_dec r0 r) as [->|]; intuition congruence.
      + unfold plus. intuition.
      + rewrite <- comps_same with (s := s1). exact OK.
    - split; auto. apply negb_false_iff, inq_iff in B. unfold s2. apply GI_comp; auto.
      apply (gi_mem _ _ H1 (QClaim r) c eq_refl) in B. destruct B as (B & _). cbn in B.
      unfold lists. cbn. rewrite keys_aset_same; auto. }
  intros _ s2 (H2 & E2). apply wp_setr. split; auto. eapply GI_same; [| | exact H2]; reflexivity.
Qed.
Lemma gq_honor_one : forall W c r q, frames (RG W) (honor_one c r q).
Proof. intros. apply (g_honor_one _ (RG_po W)). Qed.

Lemma gq_c_try : forall rt c, (forall r, frames (RG none) (rt r)) -> frames (RG none) (c_try rt c).
Proof.
  intros rt c HR. apply RG_intro. intros s H. unfold c_try. apply wp_bind, wp_stat.
  apply wp_if; intros _; [apply wp_ret; auto|]. apply wp_bind, wp_get, wp_bind.
  apply w_rg; auto. { apply fr_if; [apply (g_honor_any _ (RG_po none)) | apply (g_honor_all _ (RG_po none))]. }
  intros rh s1 H1. assert (T : forall z, rh = z -> wp
    (rq <- get (fun s => c_requests (comps s c)) ;;
      an <- get (fun s => filter (fun r => r_anon (rsc s r)) (keys rq)) ;;
      mfor rq (fun p => when (memb (fst p) rh) (claim c (fst p) (snd p)) ;;; leave_req c (fst p)) ;;;
      setc c (w_requests []) ;;;
      remove c ;;;
      setc c (w_status Scheduled) ;;;
      n <- get now ;;
      reschedule c (Fin n) (Fin 0) false (Some false) ;;;
      sw <- get (fun s => yl s && Nat.eqb c (cur s)) ;;
      (if (sw : bool) then setc c (w_retry an)  else mfor an rt) ;;;
      ret true) (fun _ s' => GI none s') (fun _ s' => GI none s') s1).
  2:{ destruct rh; [apply wp_ret; auto | apply (T _ eq_refl)]. }
  intros z _. apply wp_bind, wp_get, wp_bind, wp_get, wp_bind.
  set (rq := c_requests (comps s1 c)).
  set (Wd := fun rest : list (nat * Q) => fun (d : nat) (q : qref) => d = c /\ exists r, q = QReq r /\ In r (keys rq) /\ ~ In r (keys rest)).
  assert (L : wp (mfor rq (fun p => when (memb (fst p) rh) (claim c (fst p) (snd p)) ;;; leave_req c (fst p)))
     (fun _ s' => GI (Wd []) s' /\ c_requests (comps s' c) = rq) (fun _ _ => False) s1).
  { eapply wp_conseq; [apply wp_mfor with (X := fun _ _ => False) (I := fun rest s' => GI (Wd rest) s' /\ c_requests (comps s' c) = rq /\ NoDup (keys rest) /\ (forall r, In r (keys rest) -> In r (keys rq))) | cbv beta | auto].
    - split; [|split; [auto | split; [apply (gi_ks _ _ H1 c) | auto]]]. eapply GI_ext; [|exact H1]. intros d q _ _. unfold none, Wd. split; [tauto|].
      intros (_ & r & _ & A & B). auto.
    - intros (r, q) t s2 (H2 & E2 & ND & IN). cbn in ND. inversion ND as [|? ? ND1 ND2]; subst. cbn [fst snd].
      assert (NWr : ~ Wd ((r, q) :: t) c (QReq r)).
      { intros (_ & r' & E & _ & K). injection E as <-. apply K. left. auto. }
      assert (M2 : mem s2 (QReq r) c).
      { apply (gi_mem _ _ H2 (QReq r) c eq_refl). split; auto. cbn. rewrite E2. apply IN. left. auto. }
      apply wp_bind.
      apply wp_conseq with (Q := fun _ s' => GI (Wd ((r, q) :: t)) s' /\ c_requests (comps s' c) = rq) (X := fun _ _ => False); auto.
      + apply wp_when; intros _; [|auto].
        eapply wp_conseq; [apply w_claim_G with (1 := H2) | cbv beta; intros; rewrite <- E2; auto | cbv beta; intros; tauto].
        intros (_ & r' & E & _). discriminate.
      + intros _ s3 (H3 & E3).
        eapply wp_conseq; [apply w_leave_req with (X := fun _ _ => False) (1 := H3); auto | cbv beta | auto].
        { cbn. rewrite E3. apply IN. left. auto. }
        intros _ s4 (H4 & E4). rewrite E4. split; [|split; [exact E3 | split; [exact ND2|]]].
        * eapply GI_ext; [|exact H4]. intros d x _ _. unfold plus, Wd. cbn. split.
          -- intros [(-> & r' & -> & A & B)|(-> & ->)]; split; auto; [exists r' | exists r]; split; auto; split; auto; [intros K; apply B; right; auto | apply IN; left; auto].
          -- intros (-> & r' & -> & A & B). destruct (Nat.eq_dec r' r) as [->|]; [auto|]. left. split; auto. exists r'.
             split; auto. split; auto. intros [K|K]; auto.
        * intros r' I. apply IN. right. auto.
    - intros _ s2 (H2 & E2 & _). auto. }
  eapply wp_conseq; [exact L | cbv beta | intros ? ? []]. intros _ s2 (H2 & E2).
  apply wp_bind, wp_setc.
  match goal with |- wp _ _ _ ?z => assert (H3 : GI none z) end.
  { apply GI_set with (W := Wd []); auto.
    - intros q _. unfold Wd, none. destruct q; cbn; rewrite ?E2; 
        try (split; intros (A & _); (split; [exact A|]); [intros (_ & ? & E & _); discriminate | tauto]).
      split; [tauto|]. intros (A & B). destruct B. split; auto. exists r. auto.
    - unfold none, Wd. intuition.
    - okk H2 c. }
  apply w_rg; auto. fq none; auto with gq.
Qed.
Lemma gq_r_try : forall n r, frames (RG none) (r_try n r).
Proof. induction n; intros; cbn; fq none; auto; apply (g_rloop _ (RG_po none)); intros; apply gq_c_try; auto. Qed.
#[export] Hint Resolve gq_r_try : gq.
Lemma gq_release1 : forall n c r q b, frames (RG none) (release1 n c r q b).
Proof.
  intros n c r q b. apply RG_intro. intros s H. unfold release1. apply wp_bind, wp_get.
  destruct (alookup r (c_claims (comps s c))) as [v|] eqn:AL; [|apply wp_raise; auto]. cbv zeta.
  set (q0 := match q with None => v | Some x => if Qltb v x then v else x end).
  apply alookup_Some_key in AL. apply wp_bind, wp_setr, wp_bind, wp_setc.
  match goal with |- wp _ _ _ ?z => set (s1 := z) end.
  assert (H1 : GI none s1).
  { apply GI_comp; [|eapply GI_same; [| | exact H]; reflexivity]. unfold lists. cbn. rewrite keys_aset_same; auto. }
  assert (L1 : lst (comps s1 c) (QClaim r)).
  { unfold s1. rewrite comps_same. cbn. rewrite keys_aset_same; auto. }
  clearbody s1. apply wp_bind.
  apply wp_conseq with (Q := fun _ s' => GI none s') (X := fun _ s' => GI none s'); auto.
  - apply wp_when; intros _; auto. apply wp_bind.
    eapply wp_conseq; [apply w_q_leave with (2 := H1); auto | cbv beta | intros e s' K; exact K].
    intros _ s2 (H2 & E2). apply wp_bind, wp_get, wp_bind.
    apply wp_conseq with (Q := fun _ s' => GI (plus none c (QClaim r)) s' /\ comps s' = comps s1) (X := fun _ s' => GI none s'); auto.
    + apply wp_when; intros _; [apply wp_setr|]; split; auto. eapply GI_same; [| | exact H2]; reflexivity.
    + intros _ s3 (H3 & E3). apply wp_setc. apply GI_set with (W := plus none c (QClaim r)); auto.
      * intros x _. unfold plus, none. destruct x; cbn; try (intuition congruence).
        rewrite keys_adel_in. intuition congruence.
      * unfold plus, none. intuition.
      * pose proof (gi_ks _ _ H3 c). unfold okks in *. cbn. intuition. apply NoDup_adel; auto.
  - intros _ s2 H2. apply w_rg; auto. fq none; auto with gq.
Qed.
#[export] Hint Resolve gq_release1 : gq.
Lemma gq_release : forall n c a, frames (RG none) (release n c a). Proof. intros. unfold release. fq none; auto with gq. Qed.
#[export] Hint Resolve gq_release : gq.
Lemma gq_release_claimers : forall f n r mx, frames (RG none) (release_claimers f n r mx).
Proof. induction n; intros r mx; cbn [release_claimers]; destruct mx as [[c p]|]; fq none; auto with gq. Qed.
Lemma gq_res_release : forall n r q, frames (RG none) (res_release n r q).
Proof. intros. unfold res_release. fq none; auto using gq_release_claimers with gq. Qed.
Lemma gq_set_cap : forall n r q, frames (RG none) (set_cap n r q). Proof. intros. unfold set_cap. fq none; auto with gq. Qed.
Lemma gq_cancel : forall n c, frames (RG none) (cancel n c). Proof. intros. unfold cancel. fq none; auto with gq. Qed.
Lemma gq_request1 : forall n c b a, frames (RG none) (request1 n c b a).
Proof.
  intros n c b ((r, q), p). apply RG_intro. intros s H. unfold request1. apply wp_bind, wp_get.
  apply wp_bind, wp_when; intros _; [apply wp_raise; auto|]. apply wp_bind, wp_when; intros _; [apply wp_raise; auto|].
  apply wp_bind, wp_setc, wp_bind. unfold q_enter at 1. apply wp_bind, wp_get.
  match goal with |- wp _ _ _ ?z => set (s1 := z) end. change (qs s1 (QReq r)) with (qs s (QReq r)).
  apply wp_if; intros I.
  - apply wp_raise. apply inq_iff in I. apply GI_comp; auto. apply (gi_mem _ _ H (QReq r) c eq_refl) in I.
    destruct I as (I & _). cbn in I. unfold lists. cbn. rewrite keys_aset_same; auto.
  - apply inq_false in I. apply wp_put.
    match goal with |- wp _ _ _ ?z => assert (H2 : GI none z) end.
    { apply GI_enter; auto; [|unfold s1; rewrite comps_same; cbn; apply keys_aset_in; auto].
      assert (NL : ~ lst (comps s c) (QReq r)).
      { intros L. apply I. apply (gi_mem _ _ H (QReq r) c eq_refl). split; [exact L | auto]. }
      unfold s1. apply GI_set with (W := none); auto.
      + intros x _. unfold plus, none. destruct x; cbn in *; try (intuition congruence).
        rewrite keys_aset_in. destruct (Nat.eq_dec r0 r) as [->|]; intuition congruence.
      + unfold plus. intuition.
      + pose proof (gi_ks _ _ H c). unfold okks in *. cbn. intuition. apply NoDup_aset; auto. }
    apply w_rg; auto. fq none; auto using gq_activate with gq.
Qed.
Lemma gq_request : forall n c args o f p u cap, frames (RG none) (request n c args o f p u cap).
Proof. intros. unfold request. fq none; auto using gq_request1 with gq. apply gq_c_try. auto with gq. Qed.

(** ** waits *)
Lemma gq_c_trywait : forall c, frames (RG none) (c_trywait c).
Proof.
  intros c. apply RG_intro. intros s H. unfold c_trywait. apply wp_bind, wp_stat. apply wp_if; intros _; [apply wp_ret; auto|].
  apply wp_bind, wp_get. apply wp_if; intros _; [|apply wp_ret; auto]. apply wp_bind, wp_get, wp_bind.
  eapply wp_conseq; [apply w_leave_waits with (1 := H); auto | cbv beta | intros e s' K; exact K].
  intros _ s1 (H1 & E1). apply wp_bind, wp_setc.
  match goal with |- wp _ _ _ ?z => assert (H2 : GI none z) end.
  { apply GI_cleared with (2 := H1); auto with gq.
    - intros q Q. rewrite E1. destruct q; clr.
    - rewrite E1. okk H c. }
  apply w_rg; auto. fq none; auto with gq.
Qed.
#[export] Hint Resolve gq_c_trywait : gq.
Lemma gq_s_trywait : forall l m, frames (RG none) (s_trywait l m).
Proof. induction l; intros m; cbn; fq none; auto with gq. Qed.
Lemma gq_st_set : forall st v, frames (RG none) (st_set st v).
Proof. intros. unfold st_set, set_sval, st_trywait. fq none; auto using gq_s_trywait. Qed.
Lemma gq_st_trigger : forall st v a m, frames (RG none) (st_trigger st v a m).
Proof. intros. unfold st_trigger, set_sval, st_trywait. fq none; auto using gq_s_trywait. Qed.
Lemma map_fst_snoc : forall A B (l : list (A * B)) x, map fst (l ++ [x]) = map fst l ++ [fst x].
Proof. intros. rewrite map_app. reflexivity. Qed.
Lemma gq_wait1 : forall c a, frames (RG none) (wait1 c a).
Proof.
  intros c ((st, f), p). apply RG_intro. intros s H. unfold wait1. apply wp_bind, wp_get, wp_bind.
  apply wp_when; intros B.
  - unfold q_enter. apply wp_bind, wp_get. apply wp_if; intros I; [apply wp_raise; auto|]. apply wp_put, wp_setc.
    apply inq_false in I.
    change (GI none (m_q (QWait st) (ins_sorted c p) (m_comp c (fun x => w_waits (c_waits x ++ [(st, f)]) x) s))).
    apply GI_enter; auto.
    + apply GI_set with (W := none); auto.
      * intros x _. unfold plus, none. destruct x; cbn; try (intuition congruence).
        rewrite map_fst_snoc, in_app_iff. cbn.
        assert (NL : ~ lst (comps s c) (QWait st)).
        { intros L. apply I. apply (gi_mem _ _ H (QWait st) c eq_refl). auto. } cbn in NL.
        destruct (Nat.eq_dec s0 st) as [->|]; intuition congruence.
      * unfold plus, none. intuition.
      * okk H c; auto.
    + rewrite comps_same. cbn. rewrite map_fst_snoc, in_app_iff. cbn. auto.
  - apply negb_false_iff in B. apply memb_iff in B. apply wp_setc. apply GI_set with (W := none); auto.
    + intros x _. unfold none. destruct x; cbn; try tauto. rewrite map_fst_snoc, in_app_iff. cbn. intuition congruence.
    + tauto.
    + okk H c; auto.
Qed.
Lemma gq_wait : forall c a al f p u cap, frames (RG none) (wait c a al f p u cap).
Proof. intros. unfold wait. fq none; auto using gq_wait1 with gq. Qed.
Lemma gq_wait_for : forall c cd sts f p u cap, frames (RG none) (wait_for c cd sts f p u cap).
Proof.
  intros. unfold wait_for. do 6 (try (apply (fr_bind _ (RG_po none)); [solve [fq none; auto with gq] | intros]));
    try solve [fq none; auto with gq].
  apply (fr_bind _ (RG_po none)); [| intros; fq none; auto with gq].
  apply (fr_mfor _ (RG_po none)). intros st. apply RG_intro. intros s H. apply wp_bind, wp_setc.
  unfold q_enter. apply wp_bind, wp_get.
  match goal with |- wp _ _ _ ?z => set (s1 := z) end. change (qs s1 (QWait st)) with (qs s (QWait st)).
  assert (OK : okks (comps s1 c)) by (unfold s1; rewrite comps_same; okk H c; auto).
  apply wp_if; intros I.
  - apply wp_raise. apply inq_iff in I. apply (gi_mem _ _ H (QWait st) c eq_refl) in I. destruct I as (I & _). cbn in I.
    apply GI_set with (W := none); auto; [| tauto | rewrite <- comps_same; exact OK].
    intros x _. unfold none. destruct x; cbn; try tauto. rewrite map_fst_snoc, in_app_iff. cbn. intuition congruence.
  - apply inq_false in I. apply wp_put. apply GI_enter; auto.
    + apply GI_set with (W := none); auto.
      * intros x _. unfold plus, none. destruct x; cbn; try (intuition congruence).
        rewrite map_fst_snoc, in_app_iff. cbn.
        assert (NL : ~ lst (comps s c) (QWait st)).
        { intros L. apply I. apply (gi_mem _ _ H (QWait st) c eq_refl). auto. } cbn in NL.
        destruct (Nat.eq_dec s0 st) as [->|]; intuition congruence.
      * unfold plus, none. intuition.
      * rewrite <- comps_same. exact OK.
    + unfold s1. rewrite comps_same. cbn. rewrite map_fst_snoc, in_app_iff. cbn. auto.
Qed.

(** ** stores *)
(** leave the requesters queues and clear the list *)
Lemma w_leave_from : forall W d s (X : exn -> env -> Prop), (forall k, ~ W d (QFrom k)) -> GI W s ->
  wp (leave_from d) (fun _ s' => GI (plusl W d QFrom (c_from (comps s d))) s' /\ comps s' = comps s) X s.
Proof.
  intros W d s X N H. unfold leave_from. apply wp_bind, wp_get.
  apply w_leaves with (K := QFrom) (c := d) (W := W); auto; try congruence.
  - intros. apply w_q_leave; auto.
  - apply (gi_ks _ _ H d).
Qed.
Lemma w_leave_to : forall W d s (X : exn -> env -> Prop), (forall k, ~ W d (QTo k)) -> GI W s ->
  wp (leave_to d) (fun _ s' => GI (plusl W d QTo (c_to (comps s d))) s' /\ comps s' = comps s) X s.
Proof.
  intros W d s X N H. unfold leave_to. apply wp_bind, wp_get.
  apply w_leaves with (K := QTo) (c := d) (W := W); auto; try congruence.
  - intros. apply w_q_leave; auto.
  - apply (gi_ks _ _ H d).
Qed.
(** all of d's registrations with stores have been withdrawn *)
Definition plusf (W : nat -> qref -> Prop) (d : nat) : nat -> qref -> Prop := fun c q => W c q \/ (c = d /\ exists k, q = QFrom k).
Definition plust (W : nat -> qref -> Prop) (d : nat) : nat -> qref -> Prop := fun c q => W c q \/ (c = d /\ exists k, q = QTo k).
Lemma GI_plusf : forall W d s, GI (plusl W d QFrom (c_from (comps s d))) s -> GI (plusf W d) s.
Proof.
  intros W d s H. eapply GI_ext; [|exact H]. intros c q _ L. unfold plusl, plusf. split.
  - intros [?|(-> & k & I & ->)]; eauto.
  - intros [?|(-> & k & ->)]; auto. right. split; auto. exists k. auto.
Qed.
Lemma GI_plust : forall W d s, GI (plusl W d QTo (c_to (comps s d))) s -> GI (plust W d) s.
Proof.
  intros W d s H. eapply GI_ext; [|exact H]. intros c q _ L. unfold plusl, plust. split.
  - intros [?|(-> & k & I & ->)]; eauto.
  - intros [?|(-> & k & ->)]; auto. right. split; auto. exists k. auto.
Qed.
Lemma GI_clearf : forall W d s, GI (plusf W d) s -> (forall k, ~ W d (QFrom k)) -> GI W (m_comp d (w_from []) s).
Proof.
  intros W d s H N. apply GI_set with (W := plusf W d); auto.
  - intros q Q. unfold plusf. destruct q; cbn; 
      try (split; intros (A & B); (split; [exact A|]); [intros [K|(_ & ? & E)]; [auto | discriminate] | tauto]).
    split; [tauto|]. intros (A & B). destruct B. right. eauto.
  - unfold plusf. intuition.
  - okk H d.
Qed.
Lemma GI_cleart : forall W d s, GI (plust W d) s -> (forall k, ~ W d (QTo k)) -> GI W (m_comp d (w_to []) s).
Proof.
  intros W d s H N. apply GI_set with (W := plust W d); auto.
  - intros q Q. unfold plust. destruct q; cbn; 
      try (split; intros (A & B); (split; [exact A|]); [intros [K|(_ & ? & E)]; [auto | discriminate] | tauto]).
    split; [tauto|]. intros (A & B). destruct B. right. eauto.
  - unfold plust. intuition.
  - okk H d.
Qed.
Lemma w_give_G : forall W d c s, GI (plusf W d) s -> (forall k, ~ W d (QFrom k)) ->
  wp (give d c) (fun _ s' => GI W s') (fun _ s' => GI W s') s.
Proof.
  intros W d c s H N. unfold give. apply wp_bind, wp_setc. apply w_rg; auto; [|apply GI_clearf; auto]. fq W; auto with gq.
Qed.
Lemma in_ins_before : forall c x l d, In d (map fst (ins_before c x l)) -> d = c \/ In d (map fst l).
Proof. induction l as [|(y, p) t IH]; intros d; cbn; auto. destruct (Nat.eqb x y); cbn; intuition. apply IH in H0. tauto. Qed.
Lemma in_ins_behind : forall c x l d, In d (map fst (ins_behind c x l)) -> d = c \/ In d (map fst l).
Proof. induction l as [|(y, p) t IH]; intros d; cbn; auto. destruct (Nat.eqb x y); cbn; intuition. apply IH in H0. tauto. Qed.
Lemma nd_ins_at : forall c w l, ~ In c (map fst l) -> NoDup (map fst l) -> NoDup (map fst (ins_at c w l)).
Proof.
  intros c w l N D. destruct w; cbn [ins_at].
  - apply nd_ins_sorted; auto.
  - rewrite map_app. cbn. induction (map fst l) as [|y t IH]; cbn; [constructor; [auto | constructor]|].
    inversion D; subst. cbn in N. constructor; [rewrite in_app_iff; cbn; intuition | apply IH; auto].
  - cbn. constructor; auto.
  - induction l as [|(y, p) t IH]; cbn; auto. cbn in N. inversion D; subst. destruct (Nat.eqb x y); cbn.
    + constructor; auto.
    + constructor; auto. intros I. apply in_ins_before in I. intuition.
  - induction l as [|(y, p) t IH]; cbn; auto. cbn in N. inversion D; subst. destruct (Nat.eqb x y); cbn.
    + constructor; [|constructor; auto]. cbn. intuition.
    + constructor; auto. intros I. apply in_ins_behind in I. intuition.
Qed.

(** withdrawals concern all stores at once *)
Definition uni (W : nat -> qref -> Prop) : Prop :=
  forall d k k', (W d (QFrom k) -> W d (QFrom k')) /\ (W d (QTo k) -> W d (QTo k')).
Lemma uni_none : uni none. Proof. split; intros []. Qed.
Lemma uni_plusf : forall W d, uni W -> uni (plusf W d).
Proof.
  intros W d U x k k'. destruct (U x k k') as (A & B). unfold plusf. split; intros [?|(-> & ? & E)]; auto; try discriminate.
  right. split; auto. eauto.
Qed.
Lemma uni_plust : forall W d, uni W -> uni (plust W d).
Proof.
  intros W d U x k k'. destruct (U x k k') as (A & B). unfold plust. split; intros [?|(-> & ? & E)]; auto; try discriminate.
  right. split; auto. eauto.
Qed.
Lemma gq_item : forall n W, uni W -> (forall k c w, frames (RG W) (item_enter n k c w)) /\ (forall k c, frames (RG W) (item_leave n k c)).
Proof.
  induction n as [|n IHn]; intros W U; (split; intros k c; intros; cbn [item_enter item_leave]; [apply (fr_raise _ (RG_po W)) | apply (fr_raise _ (RG_po W))])
   || (destruct (IHn W U) as [IH1 IH2]; split; intros k c; intros; cbn [item_enter item_leave]; apply RG_intro; intros s H).
  - apply wp_bind, wp_get. apply wp_if; intros I; [apply wp_raise; auto|]. apply wp_if; intros _; [apply wp_raise; auto|].
    apply wp_bind, wp_get. apply wp_if; intros _; [apply wp_raise; auto|]. unfold set_kmav. apply wp_bind, wp_put, wp_bind, wp_put.
    match goal with |- wp _ _ _ ?z => set (s1 := z) end.
    assert (H1 : GI W s1).
    { apply GI_store; [|eapply GI_same; [| | exact H]; reflexivity]. apply inq_false in I. apply nd_ins_at; [exact I | apply (gi_nd _ _ H)]. }
    clearbody s1. apply wp_bind, wp_get.
    destruct (find (fun d => c_filter (comps s1 d) c) (map fst (qs s1 (QFrom k)))) as [d|] eqn:F; [|apply wp_ret; auto].
    apply find_some in F. destruct F as (F & _). 
    apply (gi_mem _ _ H1 (QFrom k) d eq_refl) in F. destruct F as (_ & F).
    assert (NW : forall k, ~ W d (QFrom k)). { intros k' K. apply F. apply (proj1 (U d k' k)); auto. }
    apply wp_bind. apply w_rg; auto. intros _ s2 H2. apply wp_bind.
    eapply wp_conseq; [apply w_leave_from with (1 := NW) (2 := H2) | cbv beta | intros e s' K; exact K].
    intros _ s3 (H3 & E3). apply w_give_G; auto. apply GI_plusf. rewrite E3. exact H3.
  - apply wp_bind, wp_get. apply wp_if; intros I; [apply wp_raise; auto|]. apply wp_bind, wp_put, wp_bind, wp_get.
    unfold set_kmav. apply wp_bind, wp_put.
    match goal with |- wp _ _ _ ?z => set (s1 := z) end.
    assert (H1 : GI W s1).
    { eapply GI_same; [| | apply (GI_store W k (adel c) s)]; try reflexivity; auto. apply nd_adel, (gi_nd _ _ H). }
    clearbody s1. apply wp_if; intros _; [|apply wp_ret; auto]. apply wp_bind, wp_get.
    destruct (hd_error (map fst (qs s1 (QTo k)))) as [w|] eqn:HD; [|apply wp_ret; auto].
    assert (M1 : mem s1 (QTo k) w). { unfold mem. destruct (map fst (qs s1 (QTo k))); [discriminate|]. injection HD as ->. left; auto. }
    apply (gi_mem _ _ H1 (QTo k) w eq_refl) in M1. destruct M1 as (_ & F).
    assert (NW : forall k, ~ W w (QTo k)). { intros k' K. apply F. apply (proj2 (U w k' k)); auto. }
    apply wp_bind, wp_get. destruct (c_titem (comps s1 w)) as [i|]; [|apply wp_raise; auto].
    apply wp_bind, wp_get, wp_bind. apply w_rg; auto. intros _ s2 H2. apply wp_bind.
    eapply wp_conseq; [apply w_leave_to with (1 := NW) (2 := H2) | cbv beta | intros e s' K; exact K].
    intros _ s3 (H3 & E3). apply wp_bind, wp_setc.
    match goal with |- wp _ _ _ ?z => assert (H4 : GI W z) end.
    { apply GI_cleart; auto. apply GI_plust. rewrite E3. exact H3. }
    apply w_rg; auto. fq W; auto with gq.
Qed.
Lemma gq_item_enter : forall W n k c w, uni W -> frames (RG W) (item_enter n k c w).
Proof. intros. apply gq_item; auto. Qed.
Lemma gq_item_leave : forall W n k c, uni W -> frames (RG W) (item_leave n k c).
Proof. intros. apply gq_item; auto. Qed.
#[export] Hint Resolve gq_item_enter gq_item_leave uni_none : gq.

Lemma w_prep_G : forall c s (Q : unit -> env -> Prop) st, GI none s -> RI s -> st = c_status (comps s c) ->
  (forall s', GI none s' -> unrc c s' -> Q tt s') ->
  wp (when (negb (steqb st Current)) (check_notdata c ;;; check_notmain c ;;; remove c ;;; check_fail c)) Q (fun _ _ => True) s.
Proof.
  intros c s Q st H I E K.
  assert (F : frames (RG none) (when (negb (steqb st Current)) (check_notdata c ;;; check_notmain c ;;; remove c ;;; check_fail c)))
    by (fq none; auto with gq).
  eapply wp_conseq; [apply wp_and; [apply (frames_wp _ _ _ s F) | apply r_prep with (c := c) (Q := fun _ s' => unrc c s'); auto] | |];
    cbv beta; auto.
  intros [] s' (A & B). apply K; auto.
Qed.
Lemma nodup_dec_len : forall l : list nat, (length (nodup Nat.eq_dec l) <= length l)%nat.
Proof. induction l as [|x t IH]; cbn; auto. destruct (in_dec Nat.eq_dec x t); cbn; lia. Qed.
Lemma not_dup : forall (l : list nat), negb (nonnil l) || negb (Nat.eqb (length (nodup Nat.eq_dec l)) (length l)) = false -> NoDup l.
Proof.
  intros l H. apply orb_false_iff in H. destruct H as (_ & H). apply negb_false_iff, Nat.eqb_eq in H.
  induction l as [|x t IH]; [constructor|]. cbn in H. pose proof (nodup_dec_len t).
  destruct (in_dec Nat.eq_dec x t); cbn in H; [lia|]. constructor; auto.
Qed.
(** entering the requesters of a number of stores *)
Lemma w_enters : forall K c p (X : exn -> env -> Prop), (forall k, reg (K k) = true) -> (forall a b, K a = K b -> a = b) ->
  forall ks W s, NoDup ks -> clean W c -> GI (plusl W c K ks) s -> (forall k, In k ks -> lst (comps s c) (K k)) ->
  wp (mfor ks (fun k => q_enter (K k) c p)) (fun _ s' => GI W s' /\ comps s' = comps s) X s.
Proof.
  intros K c p X RK IK. induction ks as [|k t IH]; intros W s ND N H L; cbn [mfor].
  - apply wp_ret. split; auto. eapply GI_ext; [|exact H]. unfold plusl. intros d q _ _. split; auto. intros [?|(_ & k & [] & _)]; auto.
  - inversion ND as [|? ? ND1 ND2]; subst. apply wp_bind. unfold q_enter at 1. apply wp_bind, wp_get.
    assert (I : inq c (qs s (K k)) = false).
    { apply inq_false. intros I. apply (gi_mem _ _ H (K k) c (RK k)) in I. destruct I as (_ & I). apply I. right. split; auto.
      exists k. split; auto. left; auto. }
    rewrite I. apply wp_put.
    eapply wp_conseq; [apply IH with (W := W); auto | cbv beta | auto].
    + apply GI_enter; auto.
      * eapply GI_ext; [|exact H]. intros d q _ _. unfold plus, plusl. split.
        -- intros [?|(-> & k' & [<-|J] & ->)]; auto. left. right. split; auto. eauto.
        -- intros [[?|(-> & k' & J & ->)]|(-> & ->)]; auto; right; split; auto; [exists k' | exists k]; split; auto; [right | left]; auto.
      * apply L. left; auto.
      * intros [?|(_ & k' & J & E)]; [eapply N; eauto|]. apply IK in E. congruence.
    + intros k' J. apply L. right; auto.
    + intros _ s' (A & B). split; auto.
Qed.
Lemma gq_from_store : forall n c ks f key rp fl fp u cap s, RI s -> GI none s ->
  wp (from_store n c ks f key rp fl fp u cap) (fun _ s' => GI none s') (fun _ _ => True) s.
Proof.
  intros n c ks f key rp fl fp u cap s I H. unfold from_store. apply wp_bind, wp_when; intros D; [apply wp_raise; auto|].
  apply not_dup in D. apply wp_bind, wp_stat, wp_bind.
  apply w_prep_G with (1 := H) (2 := I); auto. intros s1 H1 U1. 
  assert (TR : forall A (m : M A) s (Q : A -> env -> Prop), frames (RG none) m -> GI none s -> (forall a s', GI none s' -> Q a s') -> wp m Q (fun _ _ => True) s).
  { intros A m s' Q F G K. eapply wp_conseq; [apply (frames_wp _ _ _ s' F) | |]; unfold RG; cbv beta; auto. }
  apply wp_bind. eapply wp_conseq; [apply wp_and; [apply (frames_wp _ _ _ s1 (gq_fail_time none fl)) |
     apply (frames_wp _ _ _ s1 (fun s => (ltac:(unfold fail_time; fu c) : frames (Ru c) (fail_time fl)) s))] | cbv beta | auto].
  intros t s2 (H2 & U2). specialize (H2 H1). specialize (U2 U1).
  apply wp_bind, wp_setc, wp_bind, wp_get.
  match goal with |- wp _ _ _ ?z => set (s3 := z) end.
  assert (H3 : GI none s3) by (apply GI_comp; auto).
  assert (U3 : c_from (comps s3 c) = []) by (unfold s3; rewrite comps_same; apply U2).
  clearbody s3. destruct (find_item s3 f key None ks 0%nat) as [[i|] k].
  - apply TR; auto. fq none; auto with gq.
  - apply wp_bind, wp_setc, wp_bind.
    eapply wp_conseq; [apply w_enters with (K := QFrom) (W := none) (X := fun _ _ => True); auto with gq; try congruence | cbv beta | auto].
    + apply GI_set with (W := none); auto.
      * intros q _. unfold plusl, none. destruct q; cbn;
        try (split; intros (A & B); (split; [exact A|]); [tauto | intros [[]|(_ & ? & _ & E)]; discriminate]).
        rewrite U3. cbn. split; [|tauto]. intros (A & B). destruct B. right. split; auto. eauto.
      * unfold plusl, none. intuition.
      * okk H3 c; auto.
    + intros k' J. rewrite comps_same. exact J.
    + intros _ s4 (H4 & _). apply TR; auto. fq none; auto with gq.
Qed.

Lemma GI_eqv : forall W s s', (forall d, lists (comps s' d) = lists (comps s d)) -> qs s' = qs s -> GI W s -> GI W s'.
Proof.
  intros W s s' E1 E2 [A B C]. constructor; unfold mem in *; rewrite ?E2; auto.
  - intros q d Q. rewrite A by auto. rewrite (lists_lst _ _ (E1 d) q). tauto.
  - intros d. eapply lists_okks; [apply E1 | apply C].
Qed.
(** the same as w_enters, with the list set afterwards *)
Lemma w_enters_f : forall K c p f (X : exn -> env -> Prop), (forall k, reg (K k) = true) -> (forall a b, K a = K b -> a = b) ->
  forall ks W s, NoDup ks -> clean W c -> GI (plusl W c K ks) (m_comp c f s) -> (forall k, In k ks -> lst (f (comps s c)) (K k)) ->
  wp (mfor ks (fun k => q_enter (K k) c p)) (fun _ s' => GI W (m_comp c f s') /\ comps s' = comps s) X s.
Proof.
  intros K c p f X RK IK. induction ks as [|k t IH]; intros W s ND N H L; cbn [mfor].
  - apply wp_ret. split; auto. eapply GI_ext; [|exact H]. unfold plusl. intros d q _ _. split; auto. intros [?|(_ & k & [] & _)]; auto.
  - inversion ND as [|? ? ND1 ND2]; subst. apply wp_bind. unfold q_enter at 1. apply wp_bind, wp_get.
    assert (I : inq c (qs s (K k)) = false).
    { apply inq_false. intros I. apply (gi_mem _ _ H (K k) c (RK k)) in I. destruct I as (_ & I). apply I. right. split; auto.
      exists k. split; auto. left; auto. }
    rewrite I. apply wp_put.
    eapply wp_conseq; [apply IH with (W := W); auto | cbv beta | auto].
    + change (GI (plusl W c K t) (m_q (K k) (ins_sorted c p) (m_comp c f s))). apply GI_enter; auto.
      * eapply GI_ext; [|exact H]. intros d q _ _. unfold plus, plusl. split.
        -- intros [?|(-> & k' & [<-|J] & ->)]; auto. left. right. split; auto. eauto.
        -- intros [[?|(-> & k' & J & ->)]|(-> & ->)]; auto; right; split; auto; [exists k' | exists k]; split; auto; [right | left]; auto.
      * rewrite comps_same. apply L. left; auto.
      * intros [?|(_ & k' & J & E)]; [eapply N; eauto|]. apply IK in E. congruence.
    + intros k' J. apply L. right; auto.
    + intros _ s' (A & B). split; auto.
Qed.
Lemma gq_to_try : forall n c i p ks s, GI none s -> unrc c s ->
  wp (to_try n c i p ks) (fun _ s' => GI none s' /\ unrc c s') (fun _ _ => True) s.
Proof.
  intros n c i p. induction ks as [|k t IH]; intros s H U; cbn [to_try]; [apply wp_ret; auto|].
  apply wp_bind, wp_get. apply wp_if; intros _; [|auto]. apply wp_bind.
  eapply wp_conseq; [apply wp_and; [apply (frames_wp _ _ _ s (gq_item_enter none n k i (PSorted p) uni_none)) |
    apply (frames_wp _ _ _ s (u_item_enter c n k i (PSorted p)))] | cbv beta | auto].
  intros _ s1 (H1 & U1). specialize (H1 H). specialize (U1 U).
  apply wp_bind, wp_setc, wp_bind, wp_setc.
  match goal with |- wp ?m _ _ ?z => set (s2 := z); set (mm := m) end.
  assert (U2 : unrc c s2). { unfold s2, unrc. rewrite !comps_same. destruct U1 as (A & B & C). repeat split; auto. }
  assert (H2 : GI none s2).
  { apply GI_comp; [|apply GI_comp; auto]. unfold lists. rewrite !comps_same. cbn. destruct U1 as (_ & _ & ->). auto. }
  assert (F : frames (fun a b => RG none a b /\ Ru c a b) mm).
  { intros z. split.
    - assert (F : frames (RG none) mm) by (unfold mm; fq none; auto with gq). apply F.
    - assert (F : frames (Ru c) mm) by (unfold mm; fu c; auto using u_remove, u_reschedule). apply F. }
  eapply wp_conseq; [apply (frames_wp _ _ _ s2 F) | cbv beta | auto]. unfold RG, Ru. intuition.
Qed.
Lemma gq_to_store : forall n c ks i rp p fl fp u cap s, RI s -> GI none s ->
  wp (to_store n c ks i rp p fl fp u cap) (fun _ s' => GI none s') (fun _ _ => True) s.
Proof.
  intros n c ks i rp p fl fp u cap s I H. unfold to_store. apply wp_bind, wp_when; intros D; [apply wp_raise; auto|].
  apply not_dup in D. apply wp_bind, wp_stat, wp_bind.
  apply w_prep_G with (1 := H) (2 := I); auto. intros s1 H1 U1. 
  assert (TR : forall A (m : M A) s (Q : A -> env -> Prop), frames (RG none) m -> GI none s -> (forall a s', GI none s' -> Q a s') -> wp m Q (fun _ _ => True) s).
  { intros A m s' Q F G K. eapply wp_conseq; [apply (frames_wp _ _ _ s' F) | |]; unfold RG; cbv beta; auto. }
  apply wp_bind. eapply wp_conseq; [apply wp_and; [apply (frames_wp _ _ _ s1 (gq_fail_time none fl)) |
     apply (frames_wp _ _ _ s1 (fun s => (ltac:(unfold fail_time; fu c) : frames (Ru c) (fail_time fl)) s))] | cbv beta | auto].
  intros t s2 (H2 & U2). specialize (H2 H1). specialize (U2 U1).
  apply wp_bind, wp_setc, wp_bind.
  eapply wp_conseq; [apply gq_to_try | cbv beta | auto]. { apply GI_comp; auto. } { apply unrc_comp; auto. }
  intros b s3 (H3 & U3). apply wp_if; intros _; [apply wp_ret; auto|]. apply wp_bind.
  eapply wp_conseq; [apply w_enters_f with (K := QTo) (W := none) (f := w_to ks) (X := fun _ _ => True); auto with gq; try congruence | cbv beta | auto].
  - apply GI_set with (W := none); auto.
    + intros q _. unfold plusl, none. destruct q; cbn;
        try (split; intros (A & B); (split; [exact A|]); [tauto | intros [[]|(_ & ? & _ & E)]; discriminate]).
      destruct U3 as (_ & _ & ->). cbn. split; [|tauto]. intros (A & B). destruct B. right. split; auto. eauto.
    + unfold plusl, none. intuition.
    + okk H3 c; auto.
  - intros _ s4 (H4 & E4). apply wp_bind, wp_setc, wp_bind, wp_setc, wp_bind, wp_setc, wp_bind, wp_setc.
    apply TR; auto with gq. eapply GI_eqv; [| | exact H4]; [|reflexivity].
    intros d. rewrite !comps_m_comp. rewrite Nat.eqb_refl. destruct (Nat.eqb_spec d c) as [->|]; reflexivity.
Qed.
Lemma gq_rescan_items : forall n k d l s, GI none s -> wp (rescan_items n k d l) (fun _ s' => GI none s') (fun _ _ => True) s.
Proof.
  intros n k d. induction l as [|i t IH]; intros s H; cbn [rescan_items]; [apply wp_ret; auto|].
  apply wp_bind, wp_get, wp_bind. apply wp_if; intros _; [|apply wp_ret; auto]. apply wp_bind.
  eapply wp_conseq; [apply w_leave_from with (2 := H) (X := fun _ _ => True); auto | cbv beta | auto].
  intros _ s1 (H1 & E1). rewrite <- E1 in H1. apply GI_plusf in H1. apply wp_bind.
  eapply wp_conseq; [apply (frames_wp _ _ _ s1 (gq_item_leave (plusf none d) n k i (uni_plusf _ d uni_none))) | cbv beta | auto].
  intros _ s2 H2. specialize (H2 H1). eapply wp_conseq; [apply w_give_G with (1 := H2); auto | cbv beta | auto].
  intros _ s3 H3. auto.
Qed.
Lemma gq_rescan : forall n k s, GI none s -> wp (rescan n k) (fun _ s' => GI none s') (fun _ _ => True) s.
Proof.
  intros n k s H. unfold rescan. apply wp_bind, wp_get. apply wp_mfor_inv; auto. intros d s1 _ H1.
  apply wp_bind, wp_get, wp_when; intros _; auto. apply wp_bind, wp_get. apply gq_rescan_items; auto.
Qed.
Lemma gq_set_filter : forall n c f s, GI none s -> wp (set_filter n c f) (fun _ s' => GI none s') (fun _ _ => True) s.
Proof.
  intros n c f s H. unfold set_filter. apply wp_bind, wp_setc, wp_bind, wp_get.
  apply wp_mfor_inv; [apply GI_comp; auto|]. intros k s1 _ H1. apply gq_rescan; auto.
Qed.
Lemma gq_rescan_to_loop : forall n k l s, GI none s -> wp (rescan_to_loop n k l) (fun _ s' => GI none s') (fun _ _ => True) s.
Proof.
  intros n k. induction l as [|d t IH]; intros s H; cbn [rescan_to_loop]; [apply wp_ret; auto|].
  apply wp_bind, wp_get. apply wp_if; intros _; [|auto]. apply wp_bind, wp_get. apply wp_if; intros _; [|apply wp_ret; auto].
  apply wp_bind. eapply wp_conseq; [apply w_leave_to with (2 := H) (X := fun _ _ => True); auto | cbv beta | auto].
  intros _ s1 (H1 & E1). rewrite <- E1 in H1. apply GI_plust in H1. apply wp_bind, wp_get.
  destruct (c_titem (comps s1 d)) as [i|]; [|apply wp_raise; auto]. apply wp_bind, wp_get, wp_bind.
  eapply wp_conseq; [apply (frames_wp _ _ _ s1 (gq_item_enter (plust none d) n k i _ (uni_plust _ d uni_none))) | cbv beta | auto].
  intros _ s2 H2. specialize (H2 H1). apply wp_bind, wp_setc.
  match goal with |- wp _ _ _ ?z => assert (H3 : GI none z) by (apply GI_cleart; auto) end.
  assert (TR : forall A B (m : M A) (k : A -> M B) s (Q : B -> env -> Prop), frames (RG none) m -> GI none s ->
    (forall a s', GI none s' -> wp (k a) Q (fun _ _ => True) s') -> wp (bind m k) Q (fun _ _ => True) s).
  { intros A B m kk s' Q F G K. apply wp_bind. eapply wp_conseq; [apply (frames_wp _ _ _ s' F) | |]; unfold RG; cbv beta; auto. }
  apply TR; [auto with gq | auto | intros]. apply TR; [fq none | auto | intros]. apply TR; [fq none | auto | intros].
  apply TR; [auto with gq | auto | intros]. apply TR; [fq none | auto | intros]. auto.
Qed.
Lemma gq_st_set_cap : forall n k cap s, GI none s -> wp (st_set_cap n k cap) (fun _ s' => GI none s') (fun _ _ => True) s.
Proof.
  intros n k cap s H. unfold st_set_cap, set_kmav. apply wp_bind, wp_get, wp_bind, wp_put, wp_bind, wp_get, wp_bind, wp_put.
  apply wp_when; intros _; [|eapply GI_same; [| | exact H]; reflexivity].
  apply wp_bind, wp_get. apply gq_rescan_to_loop. eapply GI_same; [| | exact H]; reflexivity.
Qed.
Lemma gq_step : forall n, frames (RG none) (step n).
Proof. intros. unfold step, step_event, continue. fq none; auto with gq. Qed.
Lemma gq_exec : forall n o s, RI s -> GI none s -> wp (exec n o) (fun _ s' => GI none s') (fun _ s' => calm o -> GI none s') s.
Proof.
  intros n o s I H.
  assert (G : forall m : M unit, frames (RG none) m -> wp m (fun _ s' => GI none s') (fun _ s' => calm o -> GI none s') s).
  { intros m F. eapply wp_conseq; [apply (frames_wp _ _ m s F) | |]; unfold RG; auto. }
  assert (G2 : forall m : M unit, ~ calm o -> wp m (fun _ s' => GI none s') (fun _ _ => True) s -> wp m (fun _ s' => GI none s') (fun _ s' => calm o -> GI none s') s).
  { intros m T F. eapply wp_conseq; [exact F | |]; cbv beta; tauto. }
  destruct o; cbn [exec];
    try (apply G; solve [auto using gq_create, gq_activate, gq_hold, gq_passivate, gq_interrupt, gq_resume, gq_cancel, gq_standby, gq_set_remaining,
      gq_request, gq_release, gq_res_release, gq_set_cap, gq_wait, gq_wait_for, gq_st_set, gq_st_trigger, gq_step with gq
      | unfold reset_now, terminate, run; fq none; auto with gq]);
    apply G2; auto using gq_from_store, gq_to_store, gq_rescan, gq_set_filter, gq_st_set_cap; intros [].
Qed.
Lemma GI_init : forall t0 R sv kc hp y d, GI none (init t0 R sv kc hp y d).
Proof.
  intros. constructor.
  - intros q c Q. unfold mem. cbn. unfold upd, none. destruct q; destruct (Nat.eqb c main); cbn; tauto.
  - intros q. cbn. constructor.
  - intros c. cbn. unfold upd. destruct (Nat.eqb c main); repeat split; constructor.
Qed.

(** ** Executions in which no registering call and no rescan raises *)
Inductive runs_t : env -> env -> Prop :=
| rt_refl : forall s, runs_t s s
| rt_step : forall s s1 o s2 n r, runs_t s s1 -> wf s1 o -> exec n o s1 = (s2, r) -> (forall e, r = Er e -> caught o e /\ calm o) ->
    runs_t s s2.
Definition reach_t (s : env) : Prop := exists t0 R sv kc hp y d, runs_t (init t0 R sv kc hp y d) s.
Lemma runs_t_runs : forall s s', runs_t s s' -> runs anyop s s'.
Proof.
  induction 1 as [|s s1 o s2 n r H IH W E C]; [constructor|]. eapply runs_step with (o := o); [exact IH | exact Logic.I |].
  split; auto. exists n, r. split; auto. intros e K. apply (C e K).
Qed.
Lemma reach_t_reach : forall s, reach_t s -> reach s.
Proof. intros s (t0 & R & sv & kc & hp & y & d & H). exists t0, R, sv, kc, hp, y, d. apply runs_t_runs; auto. Qed.
(** the registration invariant *)
Record QI (s : env) : Prop := { qi_k : KI s; qi_r : RI s; qi_m : unrc main s; qi_g : GI none s }.
Lemma QI_init : forall t0 R sv kc hp y d, QI (init t0 R sv kc hp y d).
Proof.
  intros. constructor; [apply KI_init | | repeat split | apply GI_init].
  intros c _. cbn. unfold upd. destruct (Nat.eqb c main); repeat split.
Qed.
Lemma QI_exec : forall n o s s' r, QI s -> wf s o -> exec n o s = (s', r) -> (forall e, r = Er e -> caught o e /\ calm o) -> QI s'.
Proof.
  intros n o s s' r [K R M G] W E C.
  assert (NR : ~ registers o main).
  { destruct W as (_ & W). destruct o; cbn in *; auto. }
  pose proof (KI_exec n o s K W) as P1. pose proof (r_exec n o s (ki_l _ K) R M W) as P2. pose proof (gq_exec n o s R G) as P3.
  pose proof (u_exec main n o NR s M) as P4. unfold wp in *. rewrite E in *. cbn in P4.
  destruct r as [a|e]; constructor; auto; destruct (C e eq_refl); auto.
Qed.
Lemma runs_t_QI : forall s s', runs_t s s' -> QI s -> QI s'.
Proof. induction 1 as [|s s1 o s2 n r H IH W E C]; intros; auto. exact (QI_exec n o s1 s2 r (IH H0) W E C). Qed.
Lemma reach_t_QI : forall s, reach_t s -> QI s.
Proof. intros s (t0 & R & sv & kc & hp & y & d & H). eapply runs_t_QI; eauto. apply QI_init. Qed.
Lemma runs_t_trans : forall a b c, runs_t a b -> runs_t b c -> runs_t a c.
Proof. intros a b c H K. induction K as [|s s1 o s2 n r K IH W E C]; auto. exact (rt_step a s1 o s2 n r (IH H) W E C). Qed.
Lemma script_runs_t : forall n l s s', script n l s = Some s' -> runs_t s s'.
Proof.
  induction l as [|o t IH]; intros s s' H; cbn [script] in H.
  - injection H as <-. constructor.
  - destruct (wfb s o) eqn:W; [|discriminate]. destruct (exec n o s) as [s1 [a|e]] eqn:E; [|discriminate].
    eapply runs_t_trans; [|apply IH; eauto]. eapply rt_step with (o := o); [constructor | apply wfb_wf; auto | exact E | discriminate].
Qed.
(** a component that has just been descheduled is in no queue *)
Lemma QI_NQ : forall s c, QI s -> c_requests (comps s c) = [] -> unrc c s -> NQ c s.
Proof.
  intros s c Q E (E1 & E2 & E3) q R M.
  apply (gi_mem _ _ (qi_g _ Q) q c) in M; [|destruct q; auto; discriminate]. destruct M as (M & _).
  destruct q; cbn in M; try discriminate; rewrite ?E, ?E1, ?E2, ?E3 in M; destruct M.
Qed.
