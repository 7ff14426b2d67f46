(** Properties C19-C23 and C60, continued: whom resources are taken from and given to. *)
From Coq Require Import QArith Lqa List Bool Arith ZArith Lia.
From Verif Require Import Base Kernel Wp KernelE KernelL KernelX KernelT KernelU KernelR KernelQ KernelS KernelI KernelP KernelO KernelA KernelB KernelC KernelD KernelF KernelG KernelV KernelW KernelH PropRes PropReq PropWake.
Import ListNotations.
Open Scope Q_scope.

(** ** C21 *)
Definition only (d : nat) (s s' : env) : Prop := forall x, x <> d -> comps s' x = comps s x.
Lemma only_po : forall d, preorder (only d).
Proof. intros d. constructor; unfold only; [auto|]. intros a b c A B x N. rewrite B, A; auto. Qed.
Lemma only_comp : forall d f s, only d s (m_comp d f s). Proof. intros d f s x N. apply comps_diff; auto. Qed.
Lemma only_same : forall d s s', comps s' = comps s -> only d s s'. Proof. intros d s s' E x _. rewrite E; auto. Qed.
Ltac fon d := fgo (only_po d); first [apply only_comp | apply only_same; reflexivity].
Lemma on_remove : forall c, frames (only c) (remove c). Proof. intros. unfold remove. fon c. Qed.
Lemma on_reschedule : forall c t p u cap, frames (only c) (reschedule c t p u cap). Proof. intros. unfold reschedule, push. fon c. Qed.
Lemma on_check_fail : forall c, frames (only c) (check_fail c).
Proof. intros. unfold check_fail, leave_req, leave_wait, q_leave. fon c. Qed.
Lemma on_activate : forall c a d p u pr kr kw cap, frames (only c) (activate c a d p u pr kr kw cap).
Proof.
  intros. unfold activate. fgo (only_po c); first [apply on_remove | apply on_reschedule | apply on_check_fail | apply only_comp | apply only_same; reflexivity].
Qed.
Lemma fold_eps : forall v, full v v = true.
Proof. intros v. unfold full. apply Qltb_iff. unfold eps. lra. Qed.
(** the claims of the components of [gone] on r are taken away, those of others left as they are *)
Definition stripped (s : env) (r : nat) (gone : list nat) (s' : env) : Prop :=
  forall d, (In d gone -> alookup r (c_claims (comps s' d)) = None) /\ (~ In d gone -> c_claims (comps s' d) = c_claims (comps s d)).
(** the loop of 8648-8652 *)
Lemma w_bump : forall n c r cs s, GI none s -> ~ In c cs -> NoDup cs ->
  wp (mfor cs (fun c' => release1 n c' r None true ;;; sw <- get (fun s => yl s && Nat.eqb c' (cur s)) ;;
          (if (sw : bool) then raise Unmodelled else activate c' None (Fin 0) (Fin 0) false false false false None)))
   (fun _ s' => GI none s' /\ stripped s r cs s' /\ comps s' c = comps s c /\ kind (rsc s' r) = kind (rsc s r)) (fun _ _ => True) s.
Proof.
  intros n c r. induction cs as [|d t IH]; intros s G NI ND; cbn [mfor].
  - apply wp_ret. split; auto. split; [intros x; split; [intros [] | auto] | auto].
  - apply wp_bind, wp_bind. eapply wp_conseq; [apply w_release1; auto | cbv beta | auto]. intros _ s1 (G1 & v & A & V). cbn [taken_back] in V.
    apply wp_bind, wp_get. apply wp_if; intros _; [apply wp_raise; auto|].
    assert (W : wp (activate d None (Fin 0) (Fin 0) false false false false None) (fun _ s2 => GI none s2 /\ quiet None s1 s2 /\ only d s1 s2) (fun _ _ => True) s1).
    { pose proof (frames_wp _ _ (activate d None (Fin 0) (Fin 0) false false false false None) s1 (qt_activate _ _ _ _ _ _ _ _ _)) as W1.
      pose proof (frames_wp _ _ (activate d None (Fin 0) (Fin 0) false false false false None) s1 (on_activate _ _ _ _ _ _ _ _ _)) as W2.
      assert (W3 : wp (activate d None (Fin 0) (Fin 0) false false false false None) (fun _ s2 => GI none s2) (fun _ s2 => GI none s2) s1) by (apply w_rg; auto using gq_activate).
      unfold wp in *. destruct (activate _ _ _ _ _ _ _ _ _ s1) as [s2 [x|e]]; auto. }
    eapply wp_conseq; [exact W | cbv beta | auto]. intros _ s2 (G2 & Q2 & O2).
    assert (NE : c <> d) by (intros ->; apply NI; left; auto).
    inversion ND as [|? ? N1 N2]; subst. eapply wp_conseq; [apply IH; auto; intros I; apply NI; right; auto | cbv beta | auto].
    intros _ s3 (G3 & S3 & C3 & K3). split; auto. split; [|split].
    + intros x. destruct (S3 x) as (S31 & S32).
      destruct (Nat.eq_dec x d) as [->|NX].
      * split; [|intros Z; exfalso; apply Z; left; auto]. intros _. rewrite S32; auto. rewrite (qt_cl _ _ Q2).
        destruct (gv_self _ _ _ _ _ _ V) as (cl & -> & L). cbn [c_claims w_claims]. rewrite L, Nat.eqb_refl, fold_eps. auto.
      * split; [intros [?|I]; [congruence | auto]|]. intros NX2. rewrite S32; [|intros I; apply NX2; right; auto]. rewrite (qt_cl _ _ Q2). rewrite (gv_oth _ _ _ _ _ _ V); auto.
    + rewrite C3, O2, (gv_oth _ _ _ _ _ _ V); auto.
    + rewrite K3. transitivity (kind (rsc s1 r)).
      * pose proof (qt_rsc _ _ Q2 r) as E. apply plain_kind; auto.
      * rewrite (gv_rsc _ _ _ _ _ _ V), Nat.eqb_refl. reflexivity.
Qed.
Lemma bumped_list : forall q p l av cs av', bump_candidates q p av l = (cs, av') ->
  exists l1 l2, l = l1 ++ l2 /\ cs = map fst l1 /\ (forall d pd, In (d, pd) l1 -> xlt p pd) /\ (l1 <> [] -> xlt av (Fin q)) /\
  (l1 <> [] -> match l2 with [] => True | (_, pd) :: _ => xle pd p end) /\ (xle (Fin 0) av' -> xle (Fin 0) av).
Proof.
  intros q p. induction l as [|(c, pc) t IH]; intros av cs av' H; cbn [bump_candidates] in H.
  - injection H as <- <-. exists [], []. repeat split; auto; try (intros ? ? []); intros H; destruct H; auto.
  - destruct (xleb (Fin q) av) eqn:E1.
    { injection H as <- <-. exists [], ((c, pc) :: t). repeat split; auto; try (intros ? ? []); intros H; destruct H; auto. }
    destruct (xleb pc p) eqn:E2.
    { injection H as <- <-. exists [], ((c, pc) :: t). repeat split; auto; try (intros ? ? []); intros H; destruct H; auto. }
    destruct (bump_candidates q p (xaddq av 0) t) as [cs1 av1] eqn:E. injection H as <- <-.
    destruct (IH _ _ _ E) as (l1 & l2 & -> & -> & K1 & K2 & K3 & K4). exists ((c, pc) :: l1), l2. repeat split; auto.
    + intros d pd [I|I]; [|eauto]. injection I as <- <-. apply xleb_false_iff; auto.
    + intros _. apply xleb_false_iff; auto.
    + intros _. destruct l1 as [|x l1]; [|apply K3; discriminate]. destruct l2 as [|(d, pd) l2]; auto.
      cbn [app map bump_candidates] in E. destruct (xleb (Fin q) (xaddq av 0)) eqn:E3.
      * apply xleb_iff in E3. apply xleb_false_iff in E1. destruct av as [a|]; cbn in *; [lra | tauto].
      * destruct (xleb pd p) eqn:E4; [apply xleb_iff; auto|]. destruct (bump_candidates q p (xaddq (xaddq av 0) 0) l2) as [? ?] eqn:E5. discriminate.
    + intros Z. specialize (K4 Z). destruct av as [a|]; cbn in *; auto. lra.
Qed.
(** honoring a request for non-anonymous resources only: nobody else is involved *)
Lemma w_c_try_plain : forall rt c s, GI none s -> (forall r q, In (r, q) (c_requests (comps s c)) -> r_anon (rsc s r) = false) ->
  wp (c_try rt c) (fun _ s' => s' = s \/ grant s c <> [] /\ exists s1, granted s c s1 /\ tail c s1 s') (fun _ _ => True) s.
Proof.
  intros rt c s G NA. unfold c_try.
  apply wp_bind, wp_stat. apply wp_if; intros B; [apply wp_ret; auto|]. apply steqb_false_iff in B.
  apply wp_bind, wp_get, wp_bind. eapply wp_eq; [apply grant_eq; auto|].
  destruct (grant s c) as [|r0 rh0] eqn:GR; [apply wp_ret; auto|]. rewrite <- GR.
  apply wp_bind, wp_get, wp_bind, wp_get, wp_bind.
  assert (AN : filter (fun r => r_anon (rsc s r)) (keys (c_requests (comps s c))) = []).
  { unfold keys. induction (c_requests (comps s c)) as [|(r, q) t IH]; auto. cbn. rewrite (NA r q); [|left; auto]. apply IH. intros r' q' I. apply (NA r' q'). right; auto. }
  rewrite AN.
  eapply wp_conseq; [apply took_all; auto | cbv beta | intros ? ? []]. intros _ s1 T. apply wp_bind, wp_setc.
  assert (GG : granted s c (m_comp c (w_requests []) s1)) by (exists s1; auto).
  match goal with |- wp ?m _ _ ?z => assert (F : frames (tail c) m) end.
  { cbn [mfor]. fgo (tail_po c); first [apply tl_remove | apply tl_reschedule | apply tail_comp; reflexivity | apply tail_same; reflexivity]. }
  eapply wp_conseq; [apply (frames_wp _ _ _ _ F) | | auto]; cbv beta. intros b s' K. right. split; [congruence|]. eauto.
Qed.
Lemma NoDup_app_r : forall A (l1 l2 : list A), NoDup (l1 ++ l2) -> NoDup l2.
Proof. induction l1; cbn; auto. intros l2 H. inversion H; auto. Qed.
Lemma GI_asking : forall s c r p g, GI none s -> ~ In c (map fst (qs s (QReq r))) ->
  GI none (m_q (QReq r) (ins_sorted c p) (m_comp c (fun x => w_requests (aset r (g x) (c_requests x)) x) s)).
Proof.
  intros s c r p g H I. apply GI_enter; auto; [|rewrite comps_same; cbn; apply keys_aset_in; auto].
  assert (NL : ~ lst (comps s c) (QReq r)).
  { intros L. apply I. apply (gi_mem _ _ H (QReq r) c eq_refl). split; [exact L | auto]. }
  apply GI_set with (W := none); auto.
  - intros x _. unfold plus, none. destruct x; cbn in *; try (intuition congruence).
    change (map fst (aset ?a ?b ?l)) with (keys (aset a b l)). rewrite keys_aset_in. destruct (Nat.eq_dec r0 r) as [->|]; intuition congruence.
  - unfold plus. intuition.
  - pose proof (gi_ks _ _ H c). unfold okks in *. cbn. intuition. apply NoDup_aset; auto.
Qed.
(** a request (for one thing) of a preemptive resource: the claimers that lose their claim are the last ones of the claimers queue; they have
    a larger priority value than the request; nobody loses when enough is available; what others have of this and other resources does not change;
    the requester gets what it asked or nothing *)
Definition bumps (s : env) (c r : nat) (q : Q) (p : xq) (s' : env) : Prop :=
  exists stay gone, qs s (QClaim r) = stay ++ gone /\
  (forall d pd, In (d, pd) gone -> xlt p pd /\ d <> c /\ claim_of s' r d = 0) /\
  (gone <> [] -> xlt (avail (rsc s r)) (Fin q) /\ match rev stay with [] => True | (_, pd) :: _ => xle pd p end) /\
  (forall d, d <> c -> ~ In d (map fst gone) -> forall r', claim_of s' r' d = claim_of s r' d) /\
  ((c_requests (comps s' c) = [] /\ claim_of s' r c == q) \/ (c_requests (comps s' c) = [(r, q)] /\ claim_of s' r c = 0)).
Theorem C21_who_partial : forall s n c r q p f pr u cap s', reachable s -> wf s (ORequest c [(r, q, p)] false f pr u cap) -> c_status (comps s c) = Current ->
  r_preempt (rsc s r) = true -> r_anon (rsc s r) = false -> exec n (ORequest c [(r, q, p)] false f pr u cap) s = (s', Ok tt) -> bumps s c r q p s'.
Proof.
  intros s n c r q p f pr u cap s' R W ST PB NA E. pose proof (reach_p_QI _ _ R) as QQ. pose proof (qi_g _ QQ) as G.
  assert (RE : c_requests (comps s c) = []) by (apply (ki_l _ (qi_k _ QQ)); rewrite ST; unfold idle; tauto).
  assert (NB : ~ In c (map fst (qs s (QClaim r)))) by (destruct W as (_ & _ & _ & W); apply (W r q p); auto; left; auto).
  assert (CL0 : alookup r (c_claims (comps s c)) = None).
  { destruct (alookup r (c_claims (comps s c))) eqn:A; auto. exfalso. apply NB. apply (gi_mem _ _ G (QClaim r) c eq_refl). split; [cbn; eapply alookup_Some_key; eauto | intros []]. }
  assert (MA : r_mavail (rsc s r) = avail (rsc s r)) by apply (am_mon _ (reach_AM _ _ R) r).
  assert (NDC : NoDup (map fst (qs s (QClaim r)))) by apply (gi_nd _ _ G).
  set (Z := fun z => exists stay gone, qs s (QClaim r) = stay ++ gone /\ (forall d pd, In (d, pd) gone -> xlt p pd) /\
    (gone <> [] -> xlt (avail (rsc s r)) (Fin q) /\ match rev stay with [] => True | (_, pd) :: _ => xle pd p end) /\
    stripped s r (map fst gone) z /\ GI none z /\ c_requests (comps z c) = [(r, q)] /\ r_anon (rsc z r) = false /\ c_oneof (comps z c) = false).
  assert (WP : wp (request n c [(r, q, p)] false f pr u cap) (fun _ z => bumps s c r q p z) (fun _ _ => True) s).
  { unfold request. apply wp_bind, wp_setc, wp_bind, wp_stat, wp_bind. rewrite comps_same. cbn [c_status w_oneof]. rewrite ST. apply wp_ret.
    assert (G1 : GI none (m_comp c (w_oneof false) s)) by (apply GI_comp; auto).
    apply wp_bind. pose proof (fail_time_same f (m_comp c (w_oneof false) s)) as FT. unfold wp at 1. destruct (fail_time f _) as [s1 [t|e]]; auto. cbn in FT. subst s1.
    apply wp_bind, wp_setc. match goal with |- wp _ _ _ ?z => set (s2 := z) in * end.
    assert (G2 : GI none s2) by (apply GI_comp; auto).
    assert (R2 : c_requests (comps s2 c) = []) by (unfold s2; rewrite comps_same; cbn [c_requests w_failed]; rewrite comps_same; exact RE).
    assert (O2 : c_oneof (comps s2 c) = false) by (unfold s2; rewrite comps_same; cbn [c_oneof w_failed]; rewrite comps_same; reflexivity).
    assert (C2 : forall d, c_claims (comps s2 d) = c_claims (comps s d)).
    { intros d. unfold s2. destruct (Nat.eq_dec d c) as [->|]; [rewrite !comps_same; reflexivity | rewrite !comps_diff; auto]. }
    assert (QS2 : qs s2 = qs s) by reflexivity. assert (RS2 : rsc s2 = rsc s) by reflexivity. clearbody s2.
    apply wp_bind. unfold mfor at 1. apply wp_bind.
    eapply wp_conseq with (Q := fun _ z => Z z) (X := fun _ _ => True); [| |auto].
    - assert (W1 : wp (request1 n c false (r, q, p)) (fun _ z => GI none z) (fun _ z => GI none z) s2) by (apply w_rg; auto using gq_request1).
      assert (W2 : wp (request1 n c false (r, q, p)) (fun _ z => GI none z -> Z z) (fun _ _ => True) s2).
      2: { eapply wp_conseq; [eapply wp_conj; [exact W1 | exact W2] | |]; cbv beta; [intros ? ? (? & ?)|]; auto. }
      unfold request1. rewrite <- RS2 in PB. apply wp_bind, wp_get, wp_bind, wp_when; intros _; [apply wp_raise; auto|]. apply wp_bind, wp_when; intros _; [apply wp_raise; auto|].
      apply wp_bind, wp_setc, wp_bind. unfold q_enter at 1. apply wp_bind, wp_get. apply wp_if; intros IQ; [apply wp_raise; auto|]. apply wp_put.
      rewrite PB. cbn [when]. match goal with |- wp _ _ _ ?z => set (s3 := z) end.
      assert (G3 : GI none s3).
      { apply GI_asking; auto. apply inq_false in IQ. exact IQ. }
      assert (R3 : c_requests (comps s3 c) = [(r, q)]) by (unfold s3; change (comps (m_q ?a ?f ?z)) with (comps z); rewrite comps_same, R2; reflexivity).
      assert (O3 : c_oneof (comps s3 c) = false) by (unfold s3; change (comps (m_q ?a ?f ?z)) with (comps z); rewrite comps_same; exact O2).
      assert (C3 : forall d, c_claims (comps s3 d) = c_claims (comps s d)).
      { intros d. rewrite <- C2. unfold s3. change (comps (m_q ?a ?f ?z)) with (comps z). destruct (Nat.eq_dec d c) as [->|]; [rewrite comps_same; reflexivity | rewrite comps_diff; auto]. }
      assert (QS3 : qs s3 (QClaim r) = qs s (QClaim r)) by (unfold s3; rewrite qs_m_q; cbn [qeqb]; rewrite <- QS2; reflexivity).
      assert (RS3 : rsc s3 = rsc s) by (rewrite <- RS2; reflexivity). clearbody s3.
      apply wp_bind, wp_get, wp_bind, wp_get. rewrite RS3, QS3, MA. destruct (bump_candidates q p _ _) as [cs av'] eqn:BC.
      destruct (bumped_list _ _ _ _ _ _ BC) as (l1 & l2 & EL & -> & B1 & B2 & B3 & B4).
      assert (EL' : qs s (QClaim r) = rev l2 ++ rev l1) by (rewrite <- rev_app_distr, <- EL, rev_involutive; auto).
      apply wp_when; intros AV.
      + assert (M1 : forall d, In d (map fst (rev l1)) <-> In d (map fst l1)) by (intros d; rewrite map_rev, <- in_rev; tauto).
        eapply wp_conseq; [apply (w_bump n c r) with (s := s3); auto | cbv beta | auto].
        * intros I. apply NB. rewrite EL', map_app. apply in_or_app. right. apply M1; auto.
        * rewrite EL', map_app in NDC. apply NoDup_app_r in NDC. rewrite map_rev in NDC. apply NoDup_rev in NDC. rewrite rev_involutive in NDC. auto.
        * intros _ z (G4 & S4 & C4 & K4) _. exists (rev l2), (rev l1). split; auto. split; [intros d pd I; apply (B1 d); apply in_rev; auto|]. split.
          { intros NE. assert (NE' : l1 <> []) by (intros ->; apply NE; reflexivity). split; [auto|]. rewrite rev_involutive. apply B3; auto. }
          split; [|rewrite C4; split; [auto|]; split; [auto|]; split; [apply kind_anon in K4; rewrite K4, RS3; auto | auto]].
          intros d. destruct (S4 d) as (S41 & S42). rewrite M1. split; auto. intros I. rewrite S42; auto.
      + intros _. exists (qs s (QClaim r)), []. rewrite app_nil_r. split; auto. split; [intros d pd []|]. split; [intros []; auto|].
        split; [|rewrite RS3; auto]. intros d. split; [intros [] | auto].
    - intros _ s3 I3. apply wp_ret. apply wp_bind, wp_get, wp_bind.
      eapply wp_conseq; [apply wp_mfor_inv with (I := Z) (X := fun _ _ => True); auto | cbv beta | auto].
      { intros x z _ (stay & gone & A1 & A2 & A3 & A4 & A5 & A6 & A7 & A8). apply wp_setr. exists stay, gone. split; [auto|]. split; [auto|]. split; [auto|]. split; [auto|].
        split; [eapply GI_same; [| |exact A5]; reflexivity|]. split; [auto|]. split; [|auto].
        rewrite rsc_m_rsc. destruct (Nat.eqb_spec r (fst x)) as [<-|]; auto. destruct (xltb _ _); auto. }
      clear I3 s3. intros _ s4 (stay & gone & A1 & A2 & A3 & A4 & A5 & A6 & A7 & A8). apply wp_bind, wp_get, wp_bind, wp_setc.
      match goal with |- wp _ _ _ ?z => set (s5 := z) in * end.
      assert (G5 : GI none s5) by (apply GI_comp; auto).
      assert (S5 : stripped s r (map fst gone) s5).
      { intros d. destruct (A4 d) as (K1 & K2). unfold s5. destruct (Nat.eq_dec d c) as [->|]; [rewrite comps_same; auto | rewrite comps_diff; auto]. }
      assert (R5 : c_requests (comps s5 c) = [(r, q)]) by (unfold s5; rewrite comps_same; exact A6).
      assert (N5 : r_anon (rsc s5 r) = false) by exact A7. clearbody s5. clear A4 A5 A6 A7 A8 s4.
      assert (NC : ~ In c (map fst gone)) by (intros I; apply NB; rewrite A1, map_app; apply in_or_app; auto).
      assert (BU : forall s', (forall d, d <> c -> c_claims (comps s' d) = c_claims (comps s5 d)) ->
        ((c_requests (comps s' c) = [] /\ claim_of s' r c == q) \/ (c_requests (comps s' c) = [(r, q)] /\ claim_of s' r c = 0)) -> bumps s c r q p s').
      { intros z K1 K2. exists stay, gone. split; auto. split; [|split; [auto|]; split; [|auto]].
        - intros d pd I. assert (I2 : In d (map fst gone)) by (apply (in_map fst _ (d, pd)); auto). assert (DC : d <> c) by congruence.
          split; [eauto|]. split; auto. unfold claim_of. rewrite K1, (proj1 (S5 d)); auto.
        - intros d DC ND2 r'. unfold claim_of. rewrite K1, (proj2 (S5 d)); auto. }
      assert (CC : claim_of s5 r c = 0) by (unfold claim_of; rewrite (proj2 (S5 c)), CL0; auto).
      apply wp_bind. eapply wp_conseq; [apply w_c_try_plain; auto | cbv beta | auto].
      { rewrite R5. intros r' q' [H|[]]. injection H as <- <-. auto. }
      intros b s6 [->|(GN & s7 & GR & TL)].
      + apply wp_bind, wp_get. rewrite R5. cbn [nonnil when].
        apply wp_bind, wp_setc. pose proof (frames_wp _ _ _ (m_comp c (w_status Requesting) s5) (tl_reschedule c t pr u cap)) as TR. unfold wp in *.
        destruct (reschedule _ _ _ _ _ _) as [s9 [x|e]]; auto. apply BU.
        * intros d DC. rewrite (tl_oth _ _ _ TR), comps_diff; auto.
        * right. unfold claim_of. rewrite (tl_rq _ _ _ TR), (tl_cl _ _ _ TR), comps_same. split; [exact R5 | exact CC].
      + assert (NG : grant s5 c = [r]).
        { unfold grant in *. rewrite R5 in *. destruct (c_oneof (comps s5 c)); cbn in *; destruct (can_one s5 c r q); cbn in *; auto; destruct GN; auto. }
        assert (R6 : c_requests (comps s6 c) = []).
        { rewrite (tl_rq _ _ _ TL). destruct GR as (s8 & _ & ->). rewrite comps_same. reflexivity. }
        apply wp_bind, wp_get. rewrite R6. apply wp_ret. apply BU.
        * intros d DC. rewrite (tl_oth _ _ _ TL); auto. destruct GR as (s8 & TK & ->). rewrite comps_diff; auto. rewrite (tk_oth _ _ _ _ _ TK); auto.
        * left. split; auto. transitivity (claim_of s7 r c); [unfold claim_of; rewrite (tl_cl _ _ _ TL); reflexivity|].
          rewrite (claim_granted _ _ _ r GR), CC, N5, NG. unfold asked_of. rewrite R5. cbn. rewrite Nat.eqb_refl. cbn. lra. }
  cbn [exec] in E. unfold wp in WP. rewrite E in WP. exact WP.
Qed.
(** the claimers queue is sorted too *)
Lemma claimers_step : forall l s s' r, lstep l s s' -> ordered (qs s (QClaim r)) -> ordered (qs s' (QClaim r)).
Proof.
  intros l s s' r H O. destruct l; cbn in H.
  - rewrite (qt_clm _ _ H r). auto.
  - destruct H as (_ & [(_ & ->)|(_ & p & ->)]); [exact O|]. rewrite qs_m_q. exact O.
  - destruct H as (_ & _ & s1 & T & ->). change (qs (m_comp c (w_requests []) s1)) with (qs s1). rewrite (tk_clm _ _ _ _ _ T).
    destruct (alookup _ _); auto. destruct (_ && _); auto. unfold newclaim. destruct (inq _ _); auto. destruct (qprio _ _); auto. apply ordered_ins; auto.
  - destruct H as (_ & _ & _ & V). rewrite (gv_q _ _ _ _ _ _ V). destruct (qeqb _ _) eqn:Q; auto. apply qeqb_iff in Q. injection Q as ->. destruct (full _ _); auto. apply ordered_filter; auto.
  - destruct H as (_ & -> & _). exact O.
  - destruct H as (-> & _). exact O.
Qed.
Lemma claimers_ordered : forall s r, reachable s -> ordered (qs s (QClaim r)).
Proof.
  intros s r (t0 & R & sv & kc & hp & y & d & F & H).
  apply (inv_runs (fun _ _ => True) (fun s => ordered (qs s (QClaim r)))) with (s := init t0 R sv kc hp y d); auto; [|apply QI_init | exact Logic.I].
  intros s1 o n s2 x Q _ W E C O. pose proof (exec_path n o s1 s2 x Q W E C) as PA.
  revert O. apply (inv_path (labs s1 o) (fun s => ordered (qs s (QClaim r)))); auto. intros; eapply claimers_step; eauto.
Qed.
Lemma ordered_last : forall l d pd, ordered (l ++ [(d, pd)]) -> forall e pe, In (e, pe) l -> xle pe pd.
Proof.
  induction l as [|(a, pa) t IH]; intros d pd O e pe I; [destruct I|]. cbn in O. destruct O as (O1 & O2). destruct I as [I|I]; [|eauto].
  injection I as <- <-. apply (O1 d pd). apply in_or_app. right. left. auto.
Qed.
Lemma ordered_pre : forall l1 l2, ordered (l1 ++ l2) -> ordered l1.
Proof.
  induction l1 as [|(a, pa) t IH]; intros l2 O; cbn in *; auto. destruct O as (O1 & O2). split; [|eauto]. intros d p' I. apply (O1 d p'). apply in_or_app; auto.
Qed.
(** what the code does instead of stopping as soon as enough has been freed: once a claimer is bumped, all claimers with a larger priority value are *)
Theorem C21_bumps_all : forall s n c r q p f pr u cap s', reachable s -> wf s (ORequest c [(r, q, p)] false f pr u cap) -> c_status (comps s c) = Current ->
  r_preempt (rsc s r) = true -> r_anon (rsc s r) = false -> exec n (ORequest c [(r, q, p)] false f pr u cap) s = (s', Ok tt) ->
  (exists d, d <> c /\ claim_of s' r d < claim_of s r d) ->
  forall d pd, In (d, pd) (qs s (QClaim r)) -> claim_of s' r d = if xltb p pd then 0 else claim_of s r d.
Proof.
  intros s n c r q p f pr u cap s' R W ST PB NA E (d0 & D1 & D2) d pd I.
  destruct (C21_who_partial _ _ _ _ _ _ _ _ _ _ _ R W ST PB NA E) as (stay & gone & E1 & G1 & G2 & G3 & _).
  pose proof (claimers_ordered s r R) as O. rewrite E1 in O, I.
  assert (NG : gone <> []) by (intros ->; rewrite G3 in D2; auto; lra). specialize (G2 NG). destruct G2 as (_ & G2).
  pose proof (reach_p_QI _ _ R) as QQ. pose proof (qi_g _ QQ) as G.
  assert (NDC : NoDup (map fst (stay ++ gone))) by (rewrite <- E1; apply (gi_nd _ _ G)).
  assert (NB : ~ In c (map fst (stay ++ gone))) by (rewrite <- E1; destruct W as (_ & _ & _ & W); apply (W r q p); auto; left; auto).
  apply in_app_or in I. destruct I as [I|I].
  - assert (LE : xle pd p).
    { rewrite <- (rev_involutive stay) in O, I. destruct (rev stay) as [|(e, pe) t]; [destruct I|]. cbn in O, I. apply ordered_pre in O.
      apply in_app_or in I. destruct I as [I|[I|[]]]; [|injection I as <- <-; auto]. eapply xle_trans; [|exact G2]. eapply ordered_last; eauto. }
    assert (NI : ~ In d (map fst gone)).
    { intros K. rewrite map_app in NDC. clear - NDC I K. induction stay as [|(a, pa) t IH]; [destruct I|]. cbn in NDC. inversion NDC as [|? ? N1 N2]; subst.
      destruct I as [I|I]; [injection I as -> ->; apply N1; apply in_or_app; auto | auto]. }
    assert (DC : d <> c) by (intros ->; apply NB; rewrite map_app; apply in_or_app; left; apply (in_map fst _ (c, pd)); auto).
    rewrite G3; auto. apply xltb_false_iff in LE. rewrite LE; auto.
  - destruct (G1 d pd I) as (A & _ & B). apply xltb_iff in A. rewrite A; auto.
Qed.

(** 1 has 1 (priority 5), 2 has 2 (priority 6) of resource 2 (capacity 3) *)
Definition taken : list op := [mk 1; mk 2; mk 3; go; OStep; req 1 [(2%nat, 1, Fin 5)]; OStep; req 2 [(2%nat, 2, Fin 6)]; OStep].
Definition pre (c : nat) (q : Q) (p : xq) : op := req c [(2%nat, q, p)].
Ltac reached_p := apply stp_reach; [auto | apply rs1_fresh | vm_compute; reflexivity].
Definition aftr (l : list op) : env := stp any (envw false) l.
Example C21_case : reachable (aftr taken) /\ wf (aftr taken) (pre 3 1 (Fin 0)) /\ c_status (comps (aftr taken) 3%nat) = Current /\
  r_preempt (rsc (aftr taken) 2%nat) = true /\ r_anon (rsc (aftr taken) 2%nat) = false /\ snd (exec 19 (pre 3 1 (Fin 0)) (aftr taken)) = Ok tt /\
  qs (aftr taken) (QClaim 2) = [(1%nat, Fin 5); (2%nat, Fin 6)].
Proof. split; [reached_p|]. split; [apply wfb_wf; vm_compute; reflexivity|]. repeat split; vm_compute; reflexivity. Qed.
(** 2 would have been enough; 1 loses its claim as well *)
Theorem C21_minimal_refuted : exists s c r q p f pr u cap s', reachable s /\ wf s (ORequest c [(r, q, p)] false f pr u cap) /\ c_status (comps s c) = Current /\
  r_preempt (rsc s r) = true /\ exec 19 (ORequest c [(r, q, p)] false f pr u cap) s = (s', Ok tt) /\
  exists d1 d2, d1 <> d2 /\ claim_of s r d2 >= q /\ claim_of s' r d2 == 0 /\ 0 < claim_of s r d1 /\ claim_of s' r d1 == 0.
Proof.
  exists (aftr taken), 3%nat, 2%nat, 1, (Fin 0), SNone, (Fin 0), false, None, (fst (exec 19 (pre 3 1 (Fin 0)) (aftr taken))).
  split; [reached_p|]. split; [apply wfb_wf; vm_compute; reflexivity|]. split; [vm_compute; reflexivity|]. split; [vm_compute; reflexivity|].
  split; [change (ORequest 3 _ _ _ _ _ _) with (pre 3 1 (Fin 0)); assert (K : snd (exec 19 (pre 3 1 (Fin 0)) (aftr taken)) = Ok tt) by (vm_compute; reflexivity); rewrite <- K; apply surjective_pairing|].
  exists 1%nat, 2%nat. split; [discriminate|]. repeat split; try (vm_compute; reflexivity). vm_compute. discriminate.
Qed.
(** 1 has 2 (priority 0), 2 has 1 (priority 5); 3 asks 3 with priority 1: 2 is bumped though 3 cannot be honored anyhow *)
Definition taken2 : list op := [mk 1; mk 2; mk 3; go; OStep; req 1 [(2%nat, 2, Fin 0)]; OStep; req 2 [(2%nat, 1, Fin 5)]; OStep].
Theorem C21_hopeless_refuted : exists s c r q p f pr u cap s', reachable s /\ wf s (ORequest c [(r, q, p)] false f pr u cap) /\ c_status (comps s c) = Current /\
  r_preempt (rsc s r) = true /\ exec 19 (ORequest c [(r, q, p)] false f pr u cap) s = (s', Ok tt) /\
  c_requests (comps s' c) = [(r, q)] /\ exists d, 0 < claim_of s r d /\ claim_of s' r d == 0.
Proof.
  exists (aftr taken2), 3%nat, 2%nat, 3, (Fin 1), SNone, (Fin 0), false, None, (fst (exec 19 (pre 3 3 (Fin 1)) (aftr taken2))).
  split; [reached_p|]. split; [apply wfb_wf; vm_compute; reflexivity|]. split; [vm_compute; reflexivity|]. split; [vm_compute; reflexivity|].
  split; [change (ORequest 3 _ _ _ _ _ _) with (pre 3 3 (Fin 1)); assert (K : snd (exec 19 (pre 3 3 (Fin 1)) (aftr taken2)) = Ok tt) by (vm_compute; reflexivity); rewrite <- K; apply surjective_pairing|].
  split; [vm_compute; reflexivity|]. exists 2%nat. split; vm_compute; reflexivity.
Qed.
Example C21_case2 : let s := aftr taken in let s' := fst (exec 19 (pre 3 1 (Fin 0)) s) in claim_of s' 2%nat 1%nat < claim_of s 2%nat 1%nat.
Proof. cbv zeta. vm_compute. reflexivity. Qed.

(** ** C19 *)
(** first in line for r *)
Definition first_in_line (s : env) (r c : nat) : Prop := exists p l, qs s (QReq r) = (c, p) :: l.
Definition line_of (r : nat) (p2 p3 : xq) : list op :=
  [mk 1; mk 2; mk 3; go; OStep; req 1 [(r, 2, Fin 0)]; OStep; req 2 [(r, 1, p2)]; OStep; req 3 [(r, 1, p3)]; OStep; ORelease 1 []].
Theorem C19_first_refuted : exists s r c, reach_k s /\ r_hfirst (rsc s r) = true /\ r_anon (rsc s r) = false /\ first_in_line s r c /\
  c_status (comps s c) = Requesting /\ c_requests (comps s c) = [(r, 1)] /\ room s r 1.
Proof.
  exists (after (line_of 3 (Fin 0) (Fin 0))), 3%nat, 3%nat. split; [reached|]. split; [vm_compute; reflexivity|]. split; [vm_compute; reflexivity|].
  split; [eexists; eexists; vm_compute; reflexivity|]. split; [vm_compute; reflexivity|]. split; [vm_compute; reflexivity|]. apply (proj2 (room_enough _ _ _)). vm_compute. reflexivity.
Qed.
Theorem C19_highest_refuted : exists s r c, reach_k s /\ r_hprio (rsc s r) = true /\ r_anon (rsc s r) = false /\ first_in_line s r c /\
  c_status (comps s c) = Requesting /\ c_requests (comps s c) = [(r, 1)] /\ room s r 1.
Proof.
  exists (after (line_of 4 (Fin 0) (Fin 1))), 4%nat, 3%nat. split; [reached|]. split; [vm_compute; reflexivity|]. split; [vm_compute; reflexivity|].
  split; [eexists; eexists; vm_compute; reflexivity|]. split; [vm_compute; reflexivity|]. split; [vm_compute; reflexivity|]. apply (proj2 (room_enough _ _ _)). vm_compute. reflexivity.
Qed.

Print Assumptions C21_who_partial.
Print Assumptions C21_bumps_all.
Print Assumptions C21_minimal_refuted.
Print Assumptions C21_hopeless_refuted.
Print Assumptions C19_first_refuted.
Print Assumptions C19_highest_refuted.
