(** Honoring a request: what is decided and what is changed. *)
From Coq Require Import QArith Lqa List Bool Arith ZArith Lia.
From Verif Require Import Base Kernel Wp KernelE KernelL KernelX KernelT KernelU KernelR KernelQ.
Import ListNotations.
Open Scope Q_scope.

(** ** the decision *)
Definition enough (R : resource) (q : Q) : bool :=
  if Qltb 0 q then negb (xltb (xaddq (avail R) eps) (Fin q)) else negb (Qltb (r_claimed R + eps) (- q)).
Definition allowed (R : resource) (l : list (nat * xq)) (c : nat) : bool :=
  (negb (r_hfirst R) || match l with [] => false | (h, _) :: _ => Nat.eqb h c end) &&
  (negb (r_hprio R) || match qprio c l with
                       | Some p => xeqb p (match l with [] => Fin 0 | (_, x) :: _ => x end)
                       | None => false end).
Definition can_one (s : env) (c r : nat) (q : Q) : bool := allowed (rsc s r) (qs s (QReq r)) c && enough (rsc s r) q.
Definition grant (s : env) (c : nat) : list nat :=
  let rq := c_requests (comps s c) in
  if c_oneof (comps s c) then match find (fun p => can_one s c (fst p) (snd p)) rq with Some p => [fst p] | None => [] end
  else if forallb (fun p => can_one s c (fst p) (snd p)) rq then keys rq else [].

Lemma honor_one_eq : forall s c r q, mem s (QReq r) c -> honor_one c r q s = (s, Ok (can_one s c r q)).
Proof.
  intros s c r q H. destruct (alookup_ex _ c (qs s (QReq r)) H) as (p & P).
  assert (PR : q_prio (QReq r) c s = (s, Ok p)) by (unfold q_prio, bind, get, qprio; rewrite P; reflexivity).
  unfold can_one, allowed, enough, qprio. rewrite P. unfold honor_one. unfold mem in H. unfold bind at 1 2, get.
  destruct (qs s (QReq r)) as [|(h, ph) l]; [destruct H|].
  assert (K : forall (g : xq -> M bool), (bind (q_prio (QReq r) c) g) s = g p s) by (intros g; unfold bind; rewrite PR; reflexivity).
  destruct (r_hfirst (rsc s r)); cbn [negb orb andb]; unfold bind at 1; cbn [ret].
  - destruct (Nat.eqb h c); cbn [negb orb andb ret]; [|reflexivity]. rewrite K. destruct (r_hprio (rsc s r)), (xeqb p ph), (Qltb 0 q); reflexivity.
  - rewrite K. destruct (r_hprio (rsc s r)), (xeqb p ph), (Qltb 0 q); reflexivity.
Qed.
Lemma honor_all_eq : forall s c l, (forall r, In r (keys l) -> mem s (QReq r) c) ->
  honor_all_from c l s = (s, Ok (forallb (fun p => can_one s c (fst p) (snd p)) l)).
Proof.
  induction l as [|(r, q) t IH]; intros H; cbn [honor_all_from]; [reflexivity|]. unfold bind. rewrite honor_one_eq by (apply H; left; auto).
  cbn [forallb fst snd]. destruct (can_one s c r q); cbn [andb]; [apply IH; intros; apply H; right; auto | reflexivity].
Qed.
Lemma honor_any_eq : forall s c l, (forall r, In r (keys l) -> mem s (QReq r) c) ->
  honor_any_from c l s = (s, Ok (match find (fun p => can_one s c (fst p) (snd p)) l with Some p => [fst p] | None => [] end)).
Proof.
  induction l as [|(r, q) t IH]; intros H; cbn [honor_any_from]; [reflexivity|]. unfold bind. rewrite honor_one_eq by (apply H; left; auto).
  cbn [find fst snd]. destruct (can_one s c r q); [reflexivity | apply IH; intros; apply H; right; auto].
Qed.
Lemma GI_mem_req : forall s c r, GI none s -> In r (keys (c_requests (comps s c))) -> mem s (QReq r) c.
Proof. intros s c r G I. apply (gi_mem _ _ G (QReq r) c eq_refl). split; auto. Qed.
Lemma grant_eq : forall s c, GI none s -> (if c_oneof (comps s c) then honor_any c else honor_all c) s = (s, Ok (grant s c)).
Proof.
  intros s c G. unfold grant, honor_any, honor_all, bind, get.
  assert (H : forall r, In r (keys (c_requests (comps s c))) -> mem s (QReq r) c) by (intros; apply GI_mem_req; auto).
  destruct (c_oneof (comps s c)); [rewrite honor_any_eq; auto | rewrite honor_all_eq; auto].
Qed.

(** ** the change *)
Definition newclaim (c : nat) (r : nat) (q : Q) (s : env) : list (nat * xq) -> list (nat * xq) :=
  fun l => if inq c l then l else match qprio c (qs s (QReq r)) with Some p => ins_sorted c p l | None => l end.
(** [took s c rh dn s']: of the requests of c those in dn have been dealt with; the resources in rh have been claimed *)
Record took (s : env) (c : nat) (rh : list nat) (dn : list (nat * Q)) (s' : env) : Prop := {
  tk_env : s' = s_comps (comps s') (s_rsc (rsc s') (s_qs (qs s') s));
  tk_rsc : forall r, rsc s' r =
    match alookup r dn with
    | None => rsc s r
    | Some q => (if nonnil (qs s' (QReq r)) then fun x => x else w_minq PInf)
                (if memb r rh then r_tally (w_claimed (r_claimed (rsc s r) + q) (rsc s r)) else rsc s r)
    end;
  tk_req : forall r, qs s' (QReq r) = if memb r (keys dn) then adel c (qs s (QReq r)) else qs s (QReq r);
  tk_clm : forall r, qs s' (QClaim r) = match alookup r dn with
                                     | Some q => if memb r rh && negb (r_anon (rsc s r)) then newclaim c r q s (qs s (QClaim r)) else qs s (QClaim r)
                                     | None => qs s (QClaim r) end;
  tk_q : forall q, (forall r, q <> QReq r /\ q <> QClaim r) -> qs s' q = qs s q;
  tk_oth : forall d, d <> c -> comps s' d = comps s d;
  tk_self : exists cl, comps s' c = w_claims cl (comps s c) /\ (NoDup (keys (c_claims (comps s c))) -> NoDup (keys cl)) /\
    forall r, alookup r cl = match alookup r dn with
                             | Some q => if memb r rh && negb (r_anon (rsc s r)) then Some (match alookup r (c_claims (comps s c)) with Some v => v + q | None => q end)
                                         else alookup r (c_claims (comps s c))
                             | None => alookup r (c_claims (comps s c)) end }.
Lemma alookup_snoc : forall A k (v : A) l x, ~ In k (keys l) -> alookup x (l ++ [(k, v)]) = if Nat.eqb x k then Some v else alookup x l.
Proof.
  induction l as [|(a, b) t IH]; intros x N; cbn [app alookup]; [reflexivity|]. cbn in N.
  destruct (Nat.eqb_spec x a) as [->|]; [destruct (Nat.eqb_spec a k); [exfalso; auto | reflexivity] | apply IH; tauto].
Qed.
Lemma env_eta : forall s, s = s_comps (comps s) (s_rsc (rsc s) (s_qs (qs s) s)). Proof. intros []. reflexivity. Qed.
Lemma comp_eta : forall x, x = w_claims (c_claims x) x. Proof. intros []. reflexivity. Qed.
Lemma tally_minq : forall v x, r_tally (w_minq v x) = w_minq v (r_tally x). Proof. intros v []. reflexivity. Qed.

Lemma rsc_m_rsc : forall r f s x, rsc (m_rsc r f s) x = if Nat.eqb x r then f (rsc s r) else rsc s x.
Proof. reflexivity. Qed.
Lemma took_step : forall s c rh dn r q s1, GI none s -> took s c rh dn s1 -> mem s (QReq r) c -> ~ In r (keys dn) ->
  wp (when (memb r rh) (claim c r q) ;;; leave_req c r) (fun _ s2 => took s c rh (dn ++ [(r, q)]) s2) (fun _ _ => False) s1.
Proof.
  intros s c rh dn r q s1 G T M N.
  assert (ND : alookup r dn = None) by (apply alookup_None; auto).
  assert (NB : memb r (keys dn) = false) by (apply memb_false_iff; auto).
  assert (Q1 : qs s1 (QReq r) = qs s (QReq r)) by (rewrite (tk_req _ _ _ _ _ T), NB; auto).
  assert (R1 : rsc s1 r = rsc s r) by (rewrite (tk_rsc _ _ _ _ _ T), ND; auto).
  assert (C1 : qs s1 (QClaim r) = qs s (QClaim r)) by (rewrite (tk_clm _ _ _ _ _ T), ND; auto).
  destruct (alookup_ex _ c (qs s (QReq r)) M) as (p & P).
  (* after the claim *)
  set (mid := fun s2 : env =>
    s2 = s_comps (comps s2) (s_rsc (rsc s2) (s_qs (qs s2) s1)) /\
    (forall x, rsc s2 x = if Nat.eqb x r then (if memb r rh then r_tally (w_claimed (r_claimed (rsc s r) + q) (rsc s r)) else rsc s r) else rsc s1 x) /\
    (forall x, qs s2 x = if qeqb x (QClaim r) then (if memb r rh && negb (r_anon (rsc s r)) then newclaim c r q s (qs s (QClaim r)) else qs s (QClaim r)) else qs s1 x) /\
    (forall d, d <> c -> comps s2 d = comps s1 d) /\
    exists cl, comps s2 c = w_claims cl (comps s1 c) /\ (NoDup (keys (c_claims (comps s1 c))) -> NoDup (keys cl)) /\ forall x, alookup x cl = if Nat.eqb x r then
        (if memb r rh && negb (r_anon (rsc s r)) then Some (match alookup r (c_claims (comps s c)) with Some v => v + q | None => q end) else alookup r (c_claims (comps s c)))
        else alookup x (c_claims (comps s1 c))).
  destruct (tk_self _ _ _ _ _ T) as (cl1 & E1 & N1 & L1).
  assert (CL1 : alookup r (c_claims (comps s1 c)) = alookup r (c_claims (comps s c))).
  { rewrite E1. cbn [c_claims w_claims]. rewrite L1, ND. auto. }
  assert (QNE : forall x, qeqb x (QClaim r) = true -> x = QClaim r). { intros x. destruct (qeqb_spec x (QClaim r)); [auto | discriminate]. }
  apply wp_bind. apply wp_conseq with (Q := fun _ => mid) (X := fun _ _ => False); auto.
  { apply wp_when; intros B.
    - unfold claim. apply wp_bind, wp_setr, wp_bind. unfold q_prio. apply wp_bind, wp_get.
      match goal with |- wp _ _ _ ?z => set (a := z) end. change (qs a (QReq r)) with (qs s1 (QReq r)). rewrite Q1. unfold qprio. rewrite P.
      apply wp_ret.
      assert (RA : forall x, rsc a x = if Nat.eqb x r then w_claimed (r_claimed (rsc s r) + q) (rsc s r) else rsc s1 x).
      { intros x. unfold a. rewrite rsc_m_rsc. destruct (Nat.eqb x r); auto. rewrite R1. auto. }
      apply wp_bind, wp_get, wp_bind. rewrite RA, Nat.eqb_refl. cbn [r_anon w_claimed].
      destruct (r_anon (rsc s r)) eqn:AN; cbn [negb when].
      + apply wp_ret, wp_setr. split; [|split; [|split; [|split]]].
        * destruct s1; reflexivity.
        * intros x. rewrite rsc_m_rsc. rewrite !RA, Nat.eqb_refl, B. destruct (Nat.eqb x r); auto.
        * intros x. rewrite B. cbn [andb negb]. destruct (qeqb x (QClaim r)) eqn:K; auto. apply QNE in K. subst x. exact C1.
        * auto.
        * exists (c_claims (comps s1 c)). split; [apply comp_eta|]. split; [auto|]. intros x. rewrite B. cbn [andb negb].
          destruct (Nat.eqb_spec x r) as [->|]; auto.
      + apply wp_bind, wp_setc, wp_bind, wp_get. match goal with |- wp _ _ _ ?z => set (b := z) end.
        change (qs b (QClaim r)) with (qs s1 (QClaim r)). rewrite C1.
        assert (F : forall s3, s3 = s_qs (qs s3) b -> (forall x, qs s3 x = if qeqb x (QClaim r) then newclaim c r q s (qs s (QClaim r)) else qs s1 x) -> mid (m_rsc r r_tally s3)).
        { intros s3 E3 Q3. assert (RS : rsc s3 = rsc a) by (rewrite E3; reflexivity). assert (CS : comps s3 = comps b) by (rewrite E3; reflexivity).
          split; [|split; [|split; [|split]]].
          - rewrite E3. destruct s1; reflexivity.
          - intros x. rewrite rsc_m_rsc, RS. rewrite !RA, Nat.eqb_refl, B. destruct (Nat.eqb x r); auto.
          - intros x. rewrite B. cbn [andb negb]. change (qs (m_rsc r r_tally s3) x) with (qs s3 x). apply Q3.
          - intros d D. change (comps (m_rsc r r_tally s3)) with (comps s3). rewrite CS. unfold b. rewrite comps_diff; auto.
          - change (comps (m_rsc r r_tally s3)) with (comps s3). rewrite CS. unfold b. rewrite comps_same. change (comps a c) with (comps s1 c).
            eexists. split; [reflexivity|]. split; [apply NoDup_aset|]. intros x. rewrite B. cbn [andb negb].
            destruct (Nat.eqb_spec x r) as [->|D]; [rewrite alookup_aset_same, CL1; auto | rewrite alookup_aset_diff; auto]. }
        apply wp_conseq with (Q := fun _ s3 => s3 = s_qs (qs s3) b /\ (forall x, qs s3 x = if qeqb x (QClaim r) then newclaim c r q s (qs s (QClaim r)) else qs s1 x)) (X := fun _ _ => False); auto.
        * apply wp_when; intros I.
          -- apply negb_true_iff in I. unfold q_enter. apply wp_bind, wp_get. change (qs b (QClaim r)) with (qs s1 (QClaim r)). rewrite C1, I. apply wp_put.
             split; [destruct s1; reflexivity|]. intros x. rewrite qs_m_q. change (qs b) with (qs s1). rewrite C1. unfold newclaim, qprio. rewrite I, P. auto.
          -- apply negb_false_iff in I. split; [destruct s1; reflexivity|]. intros x. change (qs b) with (qs s1). unfold newclaim. rewrite I.
             destruct (qeqb x (QClaim r)) eqn:K; auto. apply QNE in K. subst x. exact C1.
        * intros _ s3 (E3 & Q3). apply wp_setr. apply F; auto.
    - split; [apply env_eta|]. split; [intros x; destruct (Nat.eqb_spec x r) as [->|]; [rewrite B|]; auto|].
      split; [intros x; destruct (qeqb x (QClaim r)) eqn:K; [apply QNE in K; subst x; rewrite B; auto | auto]|]. split; [auto|].
      exists (c_claims (comps s1 c)). split; [apply comp_eta|]. split; [auto|]. intros x. rewrite B. cbn [andb]. destruct (Nat.eqb_spec x r) as [->|]; auto. }
  intros _ s2 (E2 & R2 & Q2 & O2 & cl2 & S2 & N2 & L2).
  assert (QR : forall x, qs s2 (QReq x) = qs s1 (QReq x)) by (intros x; rewrite Q2; reflexivity).
  unfold leave_req, q_leave. apply wp_bind, wp_bind, wp_get. rewrite QR, Q1.
  replace (inq c (qs s (QReq r))) with true by (symmetry; apply inq_iff; exact M). apply wp_put. apply wp_bind, wp_get.
  set (s3 := m_q (QReq r) (adel c) s2).
  assert (RS : rsc s3 = rsc s2) by reflexivity.
  assert (Q3 : forall x, qs s3 x = if qeqb x (QReq r) then adel c (qs s (QReq r)) else qs s2 x).
  { intros x. unfold s3. rewrite qs_m_q. rewrite QR, Q1. auto. }
  assert (KM : forall x, memb x (keys (dn ++ [(r, q)])) = Nat.eqb x r || memb x (keys dn)).
  { intros x. apply eq_true_iff_eq. rewrite orb_true_iff, Nat.eqb_eq, !memb_iff. unfold keys. rewrite map_app, in_app_iff. cbn. intuition. }
  assert (FIN : forall s4, s4 = s_rsc (rsc s4) s3 -> (forall x, rsc s4 x = if Nat.eqb x r then (if nonnil (adel c (qs s (QReq r))) then fun y => y else w_minq PInf) (rsc s2 r) else rsc s2 x) -> took s c rh (dn ++ [(r, q)]) s4).
  { intros s4 E4 R4. assert (QS : qs s4 = qs s3) by (rewrite E4; reflexivity). assert (CS : comps s4 = comps s2) by (rewrite E4; reflexivity).
    assert (QQ : forall x, qs s4 (QReq x) = if Nat.eqb x r then adel c (qs s (QReq r)) else qs s1 (QReq x)).
    { intros x. rewrite QS, Q3, QR. cbn [qeqb]. destruct (Nat.eqb x r); auto. }
    constructor.
    - rewrite E4. unfold s3. rewrite E2. rewrite (tk_env _ _ _ _ _ T). destruct s; reflexivity.
    - intros x. rewrite R4, alookup_snoc by auto. rewrite QQ. destruct (Nat.eqb_spec x r) as [->|D].
      + rewrite R2, Nat.eqb_refl. auto.
      + rewrite R2. destruct (Nat.eqb_spec x r); [contradiction|]. apply (tk_rsc _ _ _ _ _ T).
    - intros x. rewrite QQ, KM. destruct (Nat.eqb_spec x r) as [->|D]; cbn [orb]; auto. apply (tk_req _ _ _ _ _ T).
    - intros x. rewrite QS, Q3. cbn [qeqb]. rewrite Q2. cbn [qeqb]. rewrite alookup_snoc by auto. destruct (Nat.eqb_spec x r) as [->|D]; auto. apply (tk_clm _ _ _ _ _ T).
    - intros x D. rewrite QS, Q3. destruct (qeqb_spec x (QReq r)); [exfalso; apply (proj1 (D r)); auto|]. rewrite Q2.
      destruct (qeqb_spec x (QClaim r)); [exfalso; apply (proj2 (D r)); auto|]. apply (tk_q _ _ _ _ _ T); auto.
    - intros d D. rewrite CS, O2 by auto. apply (tk_oth _ _ _ _ _ T); auto.
    - exists cl2. split; [rewrite CS, S2, E1; reflexivity|]. split; [intros K; apply N2; rewrite E1; apply N1, K|]. intros x. rewrite L2, alookup_snoc by auto.
      destruct (Nat.eqb_spec x r) as [->|D]; [auto|]. rewrite E1. cbn [c_claims w_claims]. apply L1. }
  change (qs s3 (QReq r)) with (qs (m_q (QReq r) (adel c) s2) (QReq r)). rewrite qs_m_q.
  destruct (qeqb_spec (QReq r) (QReq r)) as [_|]; [|contradiction]. rewrite QR, Q1.
  apply wp_when; intros B; [apply wp_setr|].
  - apply FIN; [destruct s2; reflexivity|]. intros x. rewrite rsc_m_rsc, RS. destruct (adel c (qs s (QReq r))); [auto | discriminate].
  - apply FIN; [destruct s2; reflexivity|]. intros x. rewrite RS. destruct (adel c (qs s (QReq r))); [discriminate|]. cbn [nonnil].
    destruct (Nat.eqb_spec x r) as [->|]; auto.
Qed.
Lemma took_refl : forall s c rh, took s c rh [] s.
Proof.
  intros. constructor; auto.
  - apply env_eta.
  - exists (c_claims (comps s c)). split; [apply comp_eta | auto].
Qed.
Lemma took_all : forall s c rh, GI none s ->
  wp (mfor (c_requests (comps s c)) (fun p => when (memb (fst p) rh) (claim c (fst p) (snd p)) ;;; leave_req c (fst p)))
     (fun _ s' => took s c rh (c_requests (comps s c)) s') (fun _ _ => False) s.
Proof.
  intros s c rh G. set (rq := c_requests (comps s c)).
  assert (ND : NoDup (keys rq)) by apply (gi_ks _ _ G c).
  assert (K : forall l dn s1, dn ++ l = rq -> took s c rh dn s1 ->
    wp (mfor l (fun p => when (memb (fst p) rh) (claim c (fst p) (snd p)) ;;; leave_req c (fst p))) (fun _ s' => took s c rh rq s') (fun _ _ => False) s1).
  { induction l as [|(r, q) t IH]; intros dn s1 E T; cbn [mfor].
    - apply wp_ret. rewrite app_nil_r in E. rewrite <- E. auto.
    - apply wp_bind. eapply wp_conseq; [apply took_step with (dn := dn); eauto | cbv beta | auto].
      + apply GI_mem_req; auto. fold rq. rewrite <- E. unfold keys. rewrite map_app, in_app_iff. right; left; auto.
      + rewrite <- E in ND. unfold keys in *. rewrite map_app in ND. cbn in ND. apply NoDup_remove_2 in ND. rewrite in_app_iff in ND. tauto.
      + intros _ s2 T2. apply (IH (dn ++ [(r, q)])); auto. rewrite <- app_assoc. exact E. }
  apply (K rq []); auto. apply took_refl.
Qed.
