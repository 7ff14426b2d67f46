(** Property C71: calls that give something back do not break down half-way. *)
From Coq Require Import QArith Lqa List Bool Arith ZArith Lia.
From Verif Require Import Base Kernel Wp KernelE KernelL KernelX KernelT KernelU KernelR KernelQ KernelS KernelI KernelP KernelO KernelA KernelB KernelC KernelD KernelF KernelG KernelV KernelW KernelH KernelZ PropRes PropReq PropWake PropGrant PropOnce.
Import ListNotations.
Open Scope Q_scope.

(** ** no errors within the retries *)
(** requests only disappear, claims do not disappear, resources keep their kind *)
Definition Rm (s s' : env) : Prop :=
  (forall c, c_requests (comps s' c) = c_requests (comps s c) \/ c_requests (comps s' c) = []) /\ (forall r, r_anon (rsc s' r) = r_anon (rsc s r)) /\
  (forall c r, alookup r (c_claims (comps s c)) <> None -> alookup r (c_claims (comps s' c)) <> None).
Lemma Rm_po : preorder Rm.
Proof.
  constructor; unfold Rm; [auto|]. intros a b c (A & B & C) (D & E & F). split; [|split; [congruence | auto]].
  intros d. destruct (A d), (D d); (try (left; congruence)); right; congruence.
Qed.
Lemma Rm_same : forall s s', comps s' = comps s -> (forall r, r_anon (rsc s' r) = r_anon (rsc s r)) -> Rm s s'.
Proof. intros s s' E F. split; [|split]; rewrite ?E; auto. Qed.
Lemma Rm_rsc : forall r f s, (forall x, r_anon (f x) = r_anon x) -> Rm s (m_rsc r f s).
Proof. intros r f s H. apply Rm_same; auto. intros x. rewrite rsc_m_rsc. destruct (Nat.eqb_spec x r) as [->|]; auto. Qed.
Lemma Rm_comp : forall c f s, (c_requests (f (comps s c)) = c_requests (comps s c) \/ c_requests (f (comps s c)) = []) ->
  (forall r, alookup r (c_claims (comps s c)) <> None -> alookup r (c_claims (f (comps s c))) <> None) -> Rm s (m_comp c f s).
Proof.
  intros c f s H K. split; [|split; [auto|]]; intros d; [|intros r]; (destruct (Nat.eq_dec d c) as [->|N]; [rewrite comps_same | rewrite comps_diff by auto]); auto.
Qed.
Ltac frm := fgo Rm_po; try (apply Rm_rsc; intros; reflexivity); try (apply Rm_comp; auto; fail); try (apply Rm_same; intros; reflexivity).
Lemma Rm_claim : forall c r q, frames Rm (claim c r q).
Proof.
  intros. unfold claim, q_prio, q_enter. frm. apply Rm_comp; [left; reflexivity|]. intros x H. cbn [c_claims w_claims].
  destruct (Nat.eq_dec x r) as [->|N]; [rewrite alookup_aset_same; discriminate | rewrite alookup_aset_diff; auto].
Qed.
Lemma Rm_c_try : forall rt c, (forall r, frames Rm (rt r)) -> frames Rm (c_try rt c).
Proof.
  intros rt c H. unfold c_try, leave_req, q_leave, remove, reschedule, push. frm; auto using Rm_claim; [apply (g_honor_any _ Rm_po) | apply (g_honor_all _ Rm_po)].
Qed.
Lemma Rm_r_try : forall n r, frames Rm (r_try n r).
Proof. induction n; intros r; cbn [r_try]; frm; apply (g_rloop _ Rm_po); intros; apply Rm_c_try; auto. Qed.

(** nobody asks anonymous and other resources in one request *)
Definition unmixed (s : env) : Prop :=
  forall c r r', In r (keys (c_requests (comps s c))) -> In r' (keys (c_requests (comps s c))) -> r_anon (rsc s r) = r_anon (rsc s r').
Lemma unmixed_Rm : forall s s', Rm s s' -> unmixed s -> unmixed s'.
Proof. intros s s' (A & B & _) U c r r' I I'. rewrite !B. destruct (A c) as [E|E]; rewrite E in I, I'; [eapply U; eauto | destruct I]. Qed.
Record Iv (s : env) : Prop := { iv_g : GI none s; iv_e : EI s; iv_u : unmixed s }.
Definition OOF (e : exn) (s : env) : Prop := e = OutOfFuel.
Definition safe (A : Type) (m : M A) : Prop := forall s, Iv s -> wp m (fun _ s' => Iv s' /\ Rm s s') OOF s.
Arguments safe {A}.
Lemma safe_of : forall A (m : M A), frames (RG none) m -> frames RE m -> frames Rm m -> (forall s, Iv s -> wp m (fun _ _ => True) OOF s) -> safe m.
Proof.
  intros A m F1 F2 F3 H s I. specialize (H s I). specialize (F1 s). specialize (F2 s). specialize (F3 s). unfold wp in *.
  destruct (m s) as [s' [x|e]]; cbn [fst] in *; auto. split; auto. destruct I as [G E U]. constructor; auto. eapply unmixed_Rm; eauto.
Qed.
Lemma safe_mfor : forall B (l : list B) f, (forall x, safe (f x)) -> safe (mfor l f).
Proof.
  intros B l f H. induction l as [|x t IH]; intros s I; cbn [mfor]; [apply wp_ret; split; [auto | apply Rm_po]|].
  apply wp_bind. eapply wp_conseq; [apply H; auto | cbv beta | auto]. intros _ s1 (I1 & R1).
  eapply wp_conseq; [apply IH; auto | cbv beta | auto]. intros _ s2 (I2 & R2). split; auto. eapply (po_trans _ Rm_po); eauto.
Qed.

(** Component._tryrequest: without the retries of the anonymous resources, and those *)
Definition rt0 (r : nat) : M unit := ret tt.
Lemma mfor_rt0 : forall l s, mfor l rt0 s = (s, Ok tt).
Proof. induction l; intros; cbn; auto. Qed.
Definition anons (s : env) (c : nat) : list nat := filter (fun r => r_anon (rsc s r)) (keys (c_requests (comps s c))).
Lemma c_try_split : forall rt c s, GI none s ->
  c_try rt c s = (b <- c_try rt0 c ;; sw <- get (fun s => yl s && Nat.eqb c (cur s)) ;; if (b : bool) && negb sw then mfor (anons s c) rt ;;; ret true else ret b) s.
Proof.
  intros rt c s G. pose proof (grant_eq s c G) as GE.
  unfold c_try, bind, stat, get, setc, put. cbv beta iota. destruct (steqb (c_status (comps s c)) Interrupted); [reflexivity|].
  rewrite GE. destruct (grant s c) as [|h t]; [reflexivity|].
  match goal with |- context [mfor ?l ?f s] => destruct (mfor l f s) as [s1 [[]|e]] end; [|reflexivity]. cbv beta iota.
  match goal with |- context [remove c ?z] => destruct (remove c z) as [s2 [[]|e]] end; [|reflexivity]. cbv beta iota.
  match goal with |- context [reschedule c ?a ?b ?d ?e ?z] => destruct (reschedule c a b d e z) as [s3 [[]|e']] end; [|reflexivity]. cbv beta iota.
  destruct (yl s3 && Nat.eqb c (cur s3)) eqn:SW.
  - unfold ret. cbv beta iota. cbn [yl cur m_comp s_comps]. rewrite SW. reflexivity.
  - rewrite mfor_rt0. unfold ret at 2. cbv beta iota. rewrite SW. reflexivity.
Qed.
Lemma wake_up_bind : forall A c (k : M A) s, (remove c ;;; setc c (w_status Scheduled) ;;; n <- get now ;; reschedule c (Fin n) (Fin 0) false (Some false) ;;; k) s = (wake_up c ;;; k) s.
Proof. intros. unfold wake_up, bind. destruct (remove c s) as [s1 [[]|e]]; reflexivity. Qed.
Lemma c_try0_ok : forall c s, Iv s -> wp (c_try rt0 c) (fun b s' => Iv s' /\ Rm s s' /\ (if b then c_requests (comps s' c) = [] else s' = s) /\ forall d, d <> c -> c_requests (comps s' d) = c_requests (comps s d)) (fun _ _ => False) s.
Proof.
  intros c s [G E U].
  assert (F1 : frames (RG none) (c_try rt0 c)) by (apply gq_c_try; intros r z; cbn; apply RG_po).
  assert (F2 : frames RE (c_try rt0 c)) by (apply re_c_try; intros r z; cbn; apply RE_po).
  assert (F3 : frames Rm (c_try rt0 c)) by (apply Rm_c_try; intros r z; cbn; apply Rm_po).
  assert (W : wp (c_try rt0 c) (fun b s' => (if b then c_requests (comps s' c) = [] else s' = s) /\ forall d, d <> c -> c_requests (comps s' d) = c_requests (comps s d)) (fun _ _ => False) s).
  { unfold c_try. apply wp_bind, wp_stat, wp_if; intros _; [apply wp_ret; auto|]. apply wp_bind, wp_get, wp_bind.
    apply (wp_eq _ _ _ _ _ _ (grant_eq s c G)). destruct (grant s c) as [|h t]; [apply wp_ret; auto|].
    apply wp_bind, wp_get, wp_bind, wp_get, wp_bind.
    assert (F : frames Eeq (mfor (c_requests (comps s c)) (fun p => when (memb (fst p) (h :: t)) (claim c (fst p) (snd p)) ;;; leave_req c (fst p)))) by (fgo Eeq_po; auto with eeq).
    eapply wp_conseq with (X := fun _ _ => False); [eapply wp_conjX with (X := fun _ _ => False); [apply took_all; auto | apply frames_wp, F | auto] | cbv beta | auto].
    intros _ s1 (TK & E1). apply wp_bind, wp_setc.
    assert (H1 : EI (m_comp c (w_requests []) s1)) by (eapply EI_Eeq; [eapply EI_Eeq; eauto | apply Eeq_m_comp; reflexivity]).
    eapply wp_of_eq; [apply wake_up_bind|]. destruct (wake_up_ok _ c H1) as (s2 & E2 & UP). apply wp_bind. unfold wp at 1. rewrite E2.
    assert (R1 : c_requests (comps s2 c) = []) by (rewrite (up_self _ _ _ UP); cbn [c_requests w_onev w_sched w_status]; rewrite comps_same; reflexivity).
    assert (R2 : forall d, d <> c -> c_requests (comps s2 d) = c_requests (comps s d)).
    { intros d N. rewrite (up_oth _ _ _ UP) by auto. rewrite comps_diff by auto. rewrite (tk_oth _ _ _ _ _ TK) by auto. reflexivity. }
    apply wp_bind, wp_get, wp_bind, wp_if; intros _.
    - apply wp_setc, wp_ret. split; [rewrite comps_same; exact R1|]. intros d N. rewrite comps_diff by auto. auto.
    - unfold wp. rewrite mfor_rt0. unfold ret. auto. }
  specialize (F1 s). specialize (F2 s). specialize (F3 s). unfold wp in *. destruct (c_try rt0 c s) as [s' [x|e]]; cbn [fst] in *; auto.
  destruct W as (W1 & W2). split; [|auto]. constructor; auto. eapply unmixed_Rm; eauto.
Qed.
Lemma Iv_mem : forall s c r, Iv s -> (mem s (QReq r) c <-> In r (keys (c_requests (comps s c)))).
Proof. intros s c r [G _ _]. split; [apply GI_req_mem; auto | apply GI_mem_req; auto]. Qed.
Lemma anons_none : forall s c r, unmixed s -> In r (keys (c_requests (comps s c))) -> r_anon (rsc s r) = false -> anons s c = [].
Proof.
  intros s c r U I A. unfold anons.
  assert (H : forall x, In x (keys (c_requests (comps s c))) -> r_anon (rsc s x) = false) by (intros x J; rewrite (U c x r); auto).
  revert H. clear. induction (keys (c_requests (comps s c))) as [|x t IH]; cbn; intros H; auto. rewrite H by auto. auto.
Qed.
Lemma qnext_neq : forall c p (l : list (nat * xq)), NoDup (map fst l) -> qnext c l <> Some (c, p).
Proof.
  intros c p l. induction l as [|[x y] t IH]; cbn; intros ND; [discriminate|]. inversion ND; subst.
  destruct (Nat.eqb_spec c x) as [->|N]; [|auto]. destruct t as [|[u v] t]; [discriminate|]. intros Z. injection Z as -> ->. cbn in *. tauto.
Qed.
Section Rt.
  Variable rt : nat -> M unit.
  Hypothesis Hrt : forall r, safe (rt r).
  Lemma ct_safe : forall c s, Iv s -> wp (c_try rt c) (fun _ s' => Iv s' /\ Rm s s' /\ (s' = s \/ c_requests (comps s' c) = []) /\
    (anons s c = [] -> forall d, d <> c -> c_requests (comps s' d) = c_requests (comps s d))) OOF s.
  Proof.
    intros c s I. eapply wp_of_eq; [apply c_try_split, I|]. apply wp_bind. eapply wp_conseq; [apply c_try0_ok; auto | cbv beta | intros e z []].
    intros b s1 (I1 & R1 & E1 & O1). apply wp_bind, wp_get, wp_if; intros B.
    - apply andb_prop in B. destruct B as (B & _). rewrite B in E1. apply wp_bind. eapply wp_conseq with (X := OOF); [eapply wp_conjX with (X1 := OOF) (X2 := OOF); [apply (safe_mfor _ (anons s c) rt Hrt s1 I1) | | auto] | cbv beta | auto].
      { instantiate (1 := fun _ s' => anons s c = [] -> s' = s1). destruct (anons s c) as [|x t] eqn:A; [cbn [mfor]; unfold wp, ret; cbv beta; auto|].
        eapply wp_conseq; [apply (safe_mfor _ (x :: t) rt Hrt s1 I1) | cbv beta; discriminate | auto]. }
      intros _ s2 ((I2 & R2) & N2). apply wp_ret. split; auto. split; [eapply (po_trans _ Rm_po); eauto|]. split.
      + right. destruct R2 as (R2 & _). destruct (R2 c) as [K|K]; rewrite K; auto.
      + intros N d D. rewrite (N2 N). auto.
    - apply wp_ret. split; auto. split; auto. split; [destruct b; auto | auto].
  Qed.
  Lemma rloop_na : forall r first p1 n mx s, Iv s -> r_anon (rsc s r) = false -> (forall c p, mx = Some (c, p) -> mem s (QReq r) c) ->
    wp (rloop (c_try rt) n r false first p1 mx) (fun _ _ => True) OOF s.
  Proof.
    intros r first p1. induction n as [|n IH]; intros mx s I A MX; (destruct mx as [[c p]|]; cbn [rloop]; [|apply wp_ret; auto]); [apply wp_raise; reflexivity|].
    apply wp_bind, wp_get. apply wp_if; intros _; [apply wp_ret; auto|]. apply wp_if; intros _; [apply wp_ret; auto|]. apply wp_if; intros _; [apply wp_ret; auto|].
    apply wp_bind, wp_get. assert (M : mem s (QReq r) c) by (eapply MX; eauto).
    apply wp_if; intros IQ; [|apply inq_false in IQ; contradiction].
    cbv zeta. apply wp_bind. eapply wp_conseq; [apply ct_safe; auto | cbv beta | auto]. intros b s1 (I1 & R1 & _ & O1).
    apply wp_bind, wp_get. cbn [andb]. apply IH; auto; [destruct R1 as (_ & K & _); rewrite K; auto|].
    intros d q QN. assert (N : d <> c) by (intros ->; revert QN; apply qnext_neq; apply (gi_nd _ _ (iv_g _ I))).
    apply (Iv_mem s1 d r I1). rewrite O1; auto; [apply Iv_mem; auto; eapply mem_qnext; eauto|].
    eapply anons_none; [apply I | apply Iv_mem; eauto | auto].
  Qed.
  Lemma rloop_an : forall r first p1 n mx s, Iv s -> (forall c p, mx = Some (c, p) -> mem s (QReq r) c) ->
    wp (rloop (c_try rt) n r true first p1 mx) (fun _ _ => True) OOF s.
  Proof.
    intros r first p1. induction n as [|n IH]; intros mx s I MX; (destruct mx as [[c p]|]; cbn [rloop]; [|apply wp_ret; auto]); [apply wp_raise; reflexivity|].
    apply wp_bind, wp_get. apply wp_if; intros _; [apply wp_ret; auto|]. apply wp_if; intros _; [apply wp_ret; auto|]. apply wp_if; intros _; [apply wp_ret; auto|].
    apply wp_bind, wp_get. assert (M : mem s (QReq r) c) by (eapply MX; eauto).
    apply wp_if; intros IQ; [|apply inq_false in IQ; contradiction].
    cbv zeta. apply wp_bind. eapply wp_conseq; [apply ct_safe; auto | cbv beta | auto]. intros b s1 (I1 & R1 & C1 & O1).
    apply wp_bind, wp_get. apply IH; auto. intros d q. cbn [andb]. destruct (inq c (qs s1 (QReq r))) eqn:Q1; cbn [negb].
    - destruct C1 as [->|C1]; [intros QN; eapply mem_qnext; eauto|]. exfalso. apply inq_iff in Q1. apply (Iv_mem s1 c r I1) in Q1. rewrite C1 in Q1. destruct Q1.
    - unfold mem. destruct (qs s1 (QReq r)) as [|[x y] t]; cbn; [discriminate|]. intros Z. injection Z as -> ->. auto.
  Qed.
End Rt.
Lemma Iv_rsc : forall r f s, (forall x, r_anon (f x) = r_anon x) -> Iv s -> Iv (m_rsc r f s).
Proof.
  intros r f s H [G E U]. constructor; [apply (RG_same none s); auto | eapply EI_Eeq; [exact E | apply Eeq_m_rsc] | eapply unmixed_Rm; [apply Rm_rsc; exact H | auto]].
Qed.
Lemma r_try_safe : forall n r, safe (r_try n r).
Proof.
  induction n as [|n IH]; intros r; apply safe_of; auto using gq_r_try, re_r_try, Rm_r_try; intros s I; cbn [r_try]; [apply wp_raise; reflexivity|].
  apply wp_bind, wp_get, wp_bind, wp_get. cbv zeta.
  assert (HM : forall s' c p, qs s' (QReq r) = qs s (QReq r) -> hd_error (qs s (QReq r)) = Some (c, p) -> mem s' (QReq r) c).
  { intros s' c p E H. unfold mem. rewrite E. destruct (qs s (QReq r)) as [|[x y] t]; cbn in *; [discriminate|]. injection H as -> ->. auto. }
  apply wp_if; intros A.
  - apply wp_bind, wp_get, wp_if; intros _; [apply wp_ret; auto|]. apply wp_bind, wp_setr, wp_bind.
    eapply wp_conseq; [apply rloop_an; auto; [apply Iv_rsc; auto | intros c p H; apply (HM _ c p); auto] | cbv beta | auto]. intros _ s1 _. apply wp_setr. auto.
  - apply rloop_na; auto. intros c p H. apply (HM s c p); auto.
Qed.

(** ** the calls *)
Definition has (s : env) (c r : nat) : Prop := alookup r (c_claims (comps s c)) <> None.
Lemma release1_safe : forall n c r q b s, Iv s -> has s c r ->
  wp (release1 n c r q b) (fun _ s' => Iv s' /\ (forall x, r_anon (rsc s' x) = r_anon (rsc s x)) /\ forall d x, has s d x -> d <> c \/ x <> r -> has s' d x) OOF s.
Proof.
  intros n c r q b s I HS.
  assert (W0 : wp (release1 n c r q true) (fun _ _ => True) (fun _ _ => False) s).
  { unfold release1. apply wp_bind, wp_get. unfold has in HS. destruct (alookup r (c_claims (comps s c))) as [v|] eqn:E; [|congruence]. cbv zeta.
    apply wp_bind, wp_setr, wp_bind, wp_setc, wp_bind. apply wp_when; intros _; [|apply wp_bind, wp_setr, wp_when; [discriminate | auto]].
    apply wp_bind. unfold q_leave. apply wp_bind, wp_get.
    assert (M : mem s (QClaim r) c) by (apply (GI_keys s c r (iv_g _ I)); congruence).
    apply wp_if; intros IQ; [|exfalso; apply inq_false in IQ; apply IQ; exact M].
    apply wp_put. apply wp_bind, wp_get, wp_bind. apply wp_when; intros _; [apply wp_setr|]; apply wp_setc; apply wp_bind, wp_setr, wp_when; (discriminate || auto). }
  eapply wp_of_eq; [apply release1_split|]. apply wp_bind.
  assert (F2 : frames RE (release1 n c r q true)) by apply re_release1.
  eapply wp_conseq with (X := fun _ _ => False); [eapply wp_conjX with (X := fun _ _ => False); [exact W0 | eapply wp_conjX with (X := fun _ _ => True); [apply w_release1; apply I | apply frames_wp, F2 | auto] | auto] | cbv beta | intros e z []].
  intros _ s1 (_ & (G1 & v & EV & GV) & E1).
  assert (A1 : forall x, r_anon (rsc s1 x) = r_anon (rsc s x)).
  { intros x. rewrite (gv_rsc _ _ _ _ _ _ GV). destruct (Nat.eqb_spec x r) as [->|]; reflexivity. }
  assert (R1 : forall d, c_requests (comps s1 d) = c_requests (comps s d)).
  { intros d. destruct (Nat.eq_dec d c) as [->|N]; [|rewrite (gv_oth _ _ _ _ _ _ GV) by auto; auto]. destruct (gv_self _ _ _ _ _ _ GV) as (cl & Ecl & _). rewrite Ecl. reflexivity. }
  assert (H1 : forall d x, has s d x -> d <> c \/ x <> r -> has s1 d x).
  { intros d x H N. unfold has. destruct (Nat.eq_dec d c) as [->|N2]; [|rewrite (gv_oth _ _ _ _ _ _ GV) by auto; auto].
    destruct (gv_self _ _ _ _ _ _ GV) as (cl & Ecl & L). rewrite Ecl. cbn [c_claims w_claims]. rewrite L. destruct (Nat.eqb_spec x r) as [->|]; [destruct N; congruence | auto]. }
  assert (I1 : Iv s1).
  { constructor; auto; [apply E1, I|]. intros d x y. rewrite R1, !A1. apply (iv_u _ I). }
  apply wp_when; intros _; [|auto].
  eapply wp_conseq; [apply r_try_safe; auto | cbv beta | auto]. intros _ s2 (I2 & _ & A2 & C2). split; auto. split; [intros; rewrite A2; auto|].
  intros d x H N. apply C2, H1; auto.
Qed.
Lemma release_all_safe : forall n c l s, Iv s -> NoDup l -> (forall r, In r l -> has s c r) -> wp (mfor l (fun r => release1 n c r None false)) (fun _ s' => Iv s') OOF s.
Proof.
  intros n c. induction l as [|r t IH]; intros s I ND H; cbn [mfor]; [apply wp_ret; auto|]. inversion ND; subst.
  apply wp_bind. eapply wp_conseq; [apply release1_safe; auto; apply H; left; auto | cbv beta | auto]. intros _ s1 (I1 & A1 & H1).
  apply IH; auto. intros x J. apply H1; [apply H; right; auto | right; intros ->; auto].
Qed.
Lemma release_args_safe : forall n c args s, Iv s -> NoDup (keys args) -> (forall a, In a args -> r_anon (rsc s (fst a)) = false /\ has s c (fst a)) ->
  wp (mfor args (fun a => an <- get (fun s => r_anon (rsc s (fst a))) ;; if (an : bool) then raise ValueErr else release1 n c (fst a) (snd a) false))
    (fun _ s' => Iv s' /\ (forall x, r_anon (rsc s' x) = r_anon (rsc s x)) /\ (forall d x, has s d x -> d <> c \/ ~ In x (keys args) -> has s' d x)) OOF s.
Proof.
  intros n c. induction args as [|[r q] t IH]; intros s I ND H; cbn [mfor]; [apply wp_ret; auto|]. cbn in ND. inversion ND; subst.
  destruct (H (r, q)) as (A & HS); [left; auto|]. cbn [fst snd] in *. apply wp_bind, wp_bind, wp_get. rewrite A.
  eapply wp_conseq; [apply release1_safe; auto | cbv beta | auto]. intros _ s1 (I1 & A1 & H1).
  eapply wp_conseq; [apply IH; auto | cbv beta | auto].
  - intros a J. destruct (H a) as (A' & HS'); [right; auto|]. rewrite A1. split; auto. apply H1; auto. right. intros E. apply H2. rewrite <- E. apply in_map; auto.
  - intros _ s2 (I2 & A2 & C2). split; auto. split; [intros; rewrite A2; auto|]. intros d x HX N. cbn in N. apply C2; [apply H1; auto; destruct N; auto; right; intros ->; tauto | destruct N; tauto].
Qed.
Lemma release_safe : forall n c args s, Iv s -> NoDup (keys args) -> (forall a, In a args -> r_anon (rsc s (fst a)) = false /\ has s c (fst a)) ->
  wp (release n c args) (fun _ s' => Iv s') OOF s.
Proof.
  intros n c args s I ND H. unfold release. destruct args as [|a t]; [|eapply wp_conseq; [apply release_args_safe; auto | cbv beta; tauto | auto]].
  apply wp_bind, wp_get. apply release_all_safe; auto; [apply (gi_ks _ _ (iv_g _ I) c)|].
  intros r J. unfold has. intros E. apply alookup_None in E. auto.
Qed.
Lemma has_mem : forall s c r, Iv s -> (has s c r <-> mem s (QClaim r) c).
Proof. intros s c r I. symmetry. apply GI_keys, I. Qed.
Lemma claimers_safe : forall fuel r n mx s, Iv s -> r_anon (rsc s r) = false -> (forall c p, mx = Some (c, p) -> mem s (QClaim r) c) ->
  wp (release_claimers fuel n r mx) (fun _ _ => True) OOF s.
Proof.
  intros fuel r. induction n as [|n IH]; intros mx s I A MX; (destruct mx as [[c p]|]; cbn [release_claimers]; [|apply wp_ret; auto]); [apply wp_raise; reflexivity|].
  assert (M : mem s (QClaim r) c) by (eapply MX; eauto). apply wp_bind, wp_get, wp_if; intros IQ; [|apply inq_false in IQ; contradiction].
  cbv zeta. apply wp_bind. eapply wp_conseq; [apply (release_args_safe fuel c [(r, None)] s I) | cbv beta | auto].
  - repeat constructor. intros [].
  - intros a [<-|[]]. cbn [fst]. split; auto. apply has_mem; auto.
  - intros _ s1 (I1 & A1 & H1). apply IH; auto; [rewrite A1; auto|]. intros d q QN.
    apply has_mem; auto. apply H1; [apply has_mem; auto; eapply mem_qnext; eauto|]. left. intros ->. revert QN. apply qnext_neq. apply (gi_nd _ _ (iv_g _ I)).
Qed.
Lemma res_release_safe : forall n r q s, Iv s -> (r_anon (rsc s r) = false -> q = None) -> wp (res_release n r q) (fun _ _ => True) OOF s.
Proof.
  intros n r q s I H. unfold res_release. apply wp_bind, wp_get, wp_if; intros A.
  - apply wp_bind, wp_setr, wp_bind, wp_get, wp_bind. apply wp_conseq with (Q := fun _ s' => Iv s') (X := OOF); [|intros _ s1 I1|auto].
    + apply wp_when; intros _; [apply wp_setr; apply Iv_rsc; auto|]; apply Iv_rsc; auto.
    + apply wp_bind, wp_setr. eapply wp_conseq; [apply r_try_safe; apply Iv_rsc; auto | auto | auto].
  - rewrite H by auto. apply wp_bind, wp_get. apply claimers_safe; auto. intros c p E. unfold mem. destruct (qs s (QClaim r)) as [|[x y] t]; cbn in *; [discriminate|]. injection E as -> ->. auto.
Qed.
Lemma set_cap_safe : forall n r cap s, Iv s -> wp (set_cap n r cap) (fun _ _ => True) OOF s.
Proof.
  intros n r cap s I. unfold set_cap. apply wp_bind, wp_setr, wp_bind, wp_setr. eapply wp_conseq; [apply r_try_safe; apply Iv_rsc; auto; apply Iv_rsc; auto | auto | auto].
Qed.
Lemma Rm_remove : forall c, frames Rm (remove c). Proof. intros. unfold remove. frm. Qed.
Lemma Rm_check_fail : forall c, frames Rm (check_fail c). Proof. intros. unfold check_fail, leave_req, q_leave. frm. Qed.
Lemma Iv_comp : forall c f s, lists (f (comps s c)) = lists (comps s c) -> Eeq s (m_comp c f s) -> Rm s (m_comp c f s) -> Iv s -> Iv (m_comp c f s).
Proof. intros c f s L E R [G EE U]. constructor; [apply GI_comp; auto | eapply EI_Eeq; eauto | eapply unmixed_Rm; eauto]. Qed.
Lemma terminate_safe : forall n c s, Iv s -> wp (terminate n c) (fun _ _ => True) OOF s.
Proof.
  intros n c s I. unfold terminate. apply wp_bind, wp_get, wp_bind. eapply wp_conseq; [apply release_all_safe; auto | cbv beta | auto].
  - apply (gi_ks _ _ (iv_g _ I) c).
  - intros r J E. apply alookup_None in E. auto.
  - intros _ s1 _. apply wp_bind, wp_setc, wp_bind, wp_setc, wp_bind, wp_setc, wp_setc. auto.
Qed.
Lemma prep_safe : forall c s, Iv s -> wp (remove c ;;; check_fail c) (fun _ s' => Iv s' /\ Rm s s') (fun _ _ => False) s.
Proof.
  intros c s [G E U]. pose proof (ready_prep c s E G) as W.
  assert (F1 : frames (RG none) (remove c ;;; check_fail c)) by (apply (fr_bind _ (RG_po none)); auto using gq_remove, gq_check_fail).
  assert (F2 : frames RE (remove c ;;; check_fail c)) by (apply (fr_bind _ RE_po); auto using re_remove; intros; apply RE_of_Eeq; auto with eeq).
  assert (F3 : frames Rm (remove c ;;; check_fail c)) by (apply (fr_bind _ Rm_po); auto using Rm_remove, Rm_check_fail).
  specialize (F1 s). specialize (F2 s). specialize (F3 s). unfold wp in *. destruct ((remove c ;;; check_fail c) s) as [s' [x|e]]; cbn [fst] in *; auto.
  split; auto. constructor; auto. eapply unmixed_Rm; eauto.
Qed.
Lemma cancel_safe : forall n c s, Iv s -> wp (cancel n c) (fun _ _ => True) OOF s.
Proof.
  intros n c s I. unfold cancel. apply wp_bind, wp_stat, wp_if; intros _; [apply wp_ret; auto|]. apply wp_bind.
  apply wp_conseq with (Q := fun _ s' => Iv s') (X := OOF); [apply wp_when; intros _; [eapply wp_conseq; [apply prep_safe; auto | cbv beta; tauto | intros e z []] | auto] | | auto].
  intros _ s1 I1. apply wp_bind, wp_get, wp_bind. eapply wp_conseq; [apply release_all_safe; auto | cbv beta | auto].
  - apply (gi_ks _ _ (iv_g _ I1) c).
  - intros r J E. apply alookup_None in E. auto.
  - intros _ s2 _. apply wp_bind, wp_setc, wp_setc. auto.
Qed.
Lemma Iv_to : forall s s', Iv s -> EI s' -> RG none s s' -> Rm s s' -> Iv s'.
Proof. intros s s' [G E U] E' R M. constructor; auto. eapply unmixed_Rm; eauto. Qed.
Lemma RGm : forall c f s, (forall x, lists (f x) = lists x) -> (forall x, c_requests (f x) = c_requests x) -> (forall x, c_claims (f x) = c_claims x) ->
  (RG none s (m_comp c f s) /\ Rm s (m_comp c f s)).
Proof. intros c f s L R C. split; [apply RG_comp; auto|]. apply Rm_comp; [left; auto | intros r; rewrite C; auto]. Qed.
Lemma continue_safe : forall n c s, Iv s -> wp (continue n c) (fun _ _ => True) OOF s.
Proof.
  intros n c s I. unfold continue. apply wp_bind, wp_get, wp_bind, wp_setc.
  eapply wp_conseq; [apply (safe_mfor _ _ (r_try n) (r_try_safe n)) | cbv beta; auto | auto].
  apply Iv_comp; auto; [apply Eeq_m_comp; reflexivity | apply Rm_comp; auto].
Qed.
Definition RGM (s s' : env) : Prop := RG none s s' /\ Rm s s'.
Lemma RGM_tr : forall a b c, RGM a b -> RGM b c -> RGM a c.
Proof. intros a b c (A & B) (C & D). split; [eapply (po_trans _ (RG_po none)); eauto | eapply (po_trans _ Rm_po); eauto]. Qed.
Lemma RGM_same : forall s s', comps s' = comps s -> qs s' = qs s -> rsc s' = rsc s -> RGM s s'.
Proof. intros s s' A B C. split; [apply RG_same; auto | apply Rm_same; auto; rewrite C; auto]. Qed.
Ltac rgm := match goal with
  | |- RGM ?s ?s => apply RGM_same; reflexivity
  | |- RGM _ (m_comp _ _ ?z) => apply (RGM_tr _ z); [rgm | apply RGm; reflexivity]
  | |- RGM _ (s_cur _ ?z) => apply (RGM_tr _ z); [rgm | apply RGM_same; reflexivity]
  | |- RGM _ (s_now _ ?z) => apply (RGM_tr _ z); [rgm | apply RGM_same; reflexivity]
  | |- RGM _ (s_evl _ ?z) => apply (RGM_tr _ z); [rgm | apply RGM_same; reflexivity]
  | |- RGM _ (s_pend _ ?z) => apply (RGM_tr _ z); [rgm | apply RGM_same; reflexivity]
  | |- RGM _ (s_stby _ ?z) => apply (RGM_tr _ z); [rgm | apply RGM_same; reflexivity]
  end.
Lemma step_safe : forall n s, Iv s -> SB s -> wp (step n) (fun _ _ => True) OOF s.
Proof.
  intros n s I SBs. apply w_step.
  - intros c t SK PD ST. split.
    + intros ->. destruct (sb_m _ SBs). unfold LS. rewrite PD, in_app_iff. right; left; auto.
    + intros _. apply continue_safe. set (s2 := s_cur c _).
      assert (E2 : EI s2).
      { unfold s2. match goal with |- EI (s_cur _ ?s0) => apply EI_Eeq with (s := s0); [|eeq] end.
        assert (E1 : EI (s_pend t s)) by (eapply EI_Eeq; [apply I | eeq]).
        repeat (apply EI_off_upd' || apply Off_same); auto; apply EI_stat_off; auto; cbn [comps s_pend]; rewrite ST; apply not_schedst_std. }
      assert (G : RGM s s2) by (unfold s2; rgm). apply (Iv_to s); auto; apply G.
  - intros _.
    assert (ID : Iv (shuffle (dropped s))).
    { assert (G : RGM s (shuffle (dropped s)) /\ Eeq s (shuffle (dropped s))).
      { unfold shuffle, dropped. destruct (c_skip (comps s (cur s))); [|destruct (pend s)]; match goal with |- context [nonnil ?l] => destruct (nonnil l) end; split; (rgm || eeq). }
      destruct G as (G & E). apply (Iv_to s); auto; [eapply EI_Eeq; [apply I | auto] | apply G | apply G]. }
    assert (EV : evl (shuffle (dropped s)) = evl s).
    { unfold shuffle, dropped. destruct (c_skip (comps s (cur s))); [|destruct (pend s)]; match goal with |- context [nonnil ?l] => destruct (nonnil l) end; reflexivity. }
    generalize dependent (shuffle (dropped s)). intros z ID EV. split; [|auto]. intros e l' EP. cbv zeta. split; [auto|]. intros _.
    rewrite <- EV in EP. apply ev_pop_spec in EP. 2: { apply NoDup_abs_seq. apply (ei_snd _ (iv_e _ ID)). }
    destruct EP as (l1 & l2 & E & -> & M). set (s1 := disp (e_c e) (KernelX.taken e (l1 ++ l2) z)).
    assert (E1 : EI s1).
    { unfold s1, disp. assert (E0 : EI (KernelX.taken e (l1 ++ l2) z)) by (apply EI_pop; auto; apply ID).
      assert (O0 : Off (e_c e) (KernelX.taken e (l1 ++ l2) z)) by (unfold Off, KernelX.taken; cbn; unfold upd; rewrite Nat.eqb_refl; reflexivity).
      assert (E5 : EI (s_cur (e_c e) (KernelX.taken e (l1 ++ l2) z))) by (eapply EI_Eeq; [exact E0 | eeq]).
      assert (O5 : Off (e_c e) (s_cur (e_c e) (KernelX.taken e (l1 ++ l2) z))) by exact O0.
      generalize dependent (s_cur (e_c e) (KernelX.taken e (l1 ++ l2) z)). intros y E5 O5. repeat (apply EI_off_upd' || apply Off_same); auto. }
    assert (I1 : Iv s1) by (assert (G : RGM z s1) by (unfold s1, disp, KernelX.taken; rgm); apply (Iv_to z); auto; apply G).
    clearbody s1. apply wp_bind. eapply wp_conseq with (X := OOF); [eapply wp_conjX with (X := OOF); [apply (w_check_fail_G none (e_c e) s1 (fun _ _ => False)); auto with gq; apply I1 | eapply wp_and; [apply (frames_wp _ RE) with (s := s1); apply RE_of_Eeq; auto with eeq | apply (frames_wp _ Rm), Rm_check_fail] | intros ? ? []] | cbv beta | auto].
    intros _ s2 (G2 & E2 & M2). apply continue_safe. constructor; auto. eapply unmixed_Rm; [exact M2 | apply I1].
Qed.

(** states: State.set, State.trigger *)
Lemma c_trywait_safe : forall c s, GI none s -> EI s -> wp (c_trywait c) (fun _ s' => GI none s' /\ EI s') (fun _ _ => False) s.
Proof.
  intros c s G E. assert (F1 : frames (RG none) (c_trywait c)) by apply gq_c_trywait. assert (F2 : frames RE (c_trywait c)) by apply re_c_trywait.
  assert (W : wp (c_trywait c) (fun _ _ => True) (fun _ _ => False) s).
  { unfold c_trywait. apply wp_bind, wp_stat, wp_if; intros _; [apply wp_ret; auto|]. apply wp_bind, wp_get, wp_if; intros _; [|apply wp_ret; auto].
    apply wp_bind, wp_get, wp_bind.
    assert (F : frames Eeq (mfor (map fst (c_waits (comps s c))) (leave_wait c))) by (unfold leave_wait; fgo Eeq_po; auto with eeq).
    eapply wp_conseq with (X := fun _ _ => False); [eapply wp_conjX with (X := fun _ _ => False); [apply w_leave_waits with (1 := G) (X := fun _ _ => False); auto | apply frames_wp, F | auto] | cbv beta | auto].
    intros _ s1 (_ & E1). apply wp_bind, wp_setc.
    assert (H1 : EI (m_comp c (w_waits []) s1)) by (eapply EI_Eeq; [eapply EI_Eeq; eauto | apply Eeq_m_comp; reflexivity]).
    eapply wp_of_eq; [apply wake_up_bind|]. destruct (wake_up_ok _ c H1) as (s2 & E2 & UP). apply wp_bind. unfold wp at 1. rewrite E2. apply wp_ret. auto. }
  specialize (F1 s). specialize (F2 s). unfold wp in *. destruct (c_trywait c s) as [s' [x|e]]; cbn [fst] in *; auto.
Qed.
Lemma s_trywait_safe : forall l m s, GI none s -> EI s -> wp (s_trywait l m) (fun _ s' => GI none s' /\ EI s') (fun _ _ => False) s.
Proof.
  induction l as [|c t IH]; intros m s G E; cbn [s_trywait]; [apply wp_ret; auto|]. apply wp_bind.
  eapply wp_conseq; [apply c_trywait_safe; auto | cbv beta | auto]. intros b s1 (G1 & E1). apply wp_if; intros _; [|auto].
  destruct m as [m|]; [apply wp_if; intros _; [apply wp_ret; auto|]|]; auto.
Qed.
Lemma set_sval_ok : forall st v s, GI none s -> EI s -> wp (set_sval st v) (fun _ s' => GI none s' /\ EI s') (fun _ _ => False) s.
Proof. intros st v s G E. unfold set_sval. apply wp_put. split; [apply (RG_same none s); auto | eapply EI_Eeq; [exact E | eeq]]. Qed.
Lemma st_trywait_safe : forall st m s, GI none s -> EI s -> wp (st_trywait st m) (fun _ s' => GI none s' /\ EI s') (fun _ _ => False) s.
Proof. intros. unfold st_trywait. apply wp_bind, wp_get. apply s_trywait_safe; auto. Qed.
Lemma st_set_safe : forall st v s, GI none s -> EI s -> wp (st_set st v) (fun _ _ => True) (fun _ _ => False) s.
Proof.
  intros st v s G E. unfold st_set. apply wp_bind, wp_get, wp_when; intros _; [|auto]. apply wp_bind. eapply wp_conseq; [apply set_sval_ok; auto | cbv beta | auto].
  intros _ s1 (G1 & E1). eapply wp_conseq; [apply st_trywait_safe; auto | auto | auto].
Qed.
Lemma st_trigger_safe : forall st v a m s, GI none s -> EI s -> wp (st_trigger st v a m) (fun _ _ => True) (fun _ _ => False) s.
Proof.
  intros st v a m s G E. unfold st_trigger. apply wp_bind, wp_get. cbv zeta.
  apply wp_bind. eapply wp_conseq; [apply set_sval_ok; auto | cbv beta | auto]. intros _ s1 (G1 & E1).
  apply wp_bind. eapply wp_conseq; [apply st_trywait_safe; auto | cbv beta | auto]. intros _ s2 (G2 & E2).
  apply wp_bind. eapply wp_conseq; [apply set_sval_ok; auto | cbv beta | auto]. intros _ s3 (G3 & E3).
  eapply wp_conseq; [apply st_trywait_safe; auto | auto | auto].
Qed.

(** ** C71 *)
(** the call ends without an exception (whatever the fuel of the model, as long as it is enough) *)
Definition succeeds (s : env) (o : op) : Prop := exists n0 s', forall n, (n0 <= n)%nat -> exec n o s = (s', Ok tt).
(** c is one of the claimers of r *)
Definition claimer (s : env) (r c : nat) : Prop := In c (map fst (qs s (QClaim r))).
Lemma succeeds_of : forall s o, reachable s -> still_op o = false -> (forall n, wp (exec n o) (fun _ _ => True) OOF s) -> succeeds s o.
Proof.
  intros s o R SO H. destruct (C22_ends s o R SO) as (n0 & s' & r & NR & E). exists n0, s'. intros n L. rewrite (E n L).
  specialize (H n). unfold wp in H. rewrite (E n L) in H. destruct r as [[]|e]; auto. unfold OOF in H. congruence.
Qed.
Lemma reachable_Iv : forall s, reachable s -> unmixed s -> Iv s.
Proof. intros s R U. pose proof (reach_p_QI _ _ R) as [[]]. constructor; auto. Qed.
(** Component.release of resources the component holds, or of everything *)
Theorem C71_release_partial : forall s c args, reachable s -> unmixed s -> NoDup (map fst args) ->
  (forall r q, In (r, q) args -> claimer s r c) -> succeeds s (ORelease c args).
Proof.
  intros s c args R U ND H. apply succeeds_of; auto. intros n. cbn [exec]. eapply wp_conseq; [apply release_safe; auto using reachable_Iv | auto | auto].
  intros (r, q) I. cbn [fst]. specialize (H r q I). destruct (C14_claimers s r c R) as (A & _ & _ & B). split.
  - destruct (r_anon (rsc s r)) eqn:AN; auto. unfold claimer in H. rewrite B in H by auto. destruct H.
  - apply A in H. destruct H as (v & E). unfold has. congruence.
Qed.
(** Resource.release: of any quantity for an anonymous resource, of everything for the others *)
Theorem C71_resource_release_partial : forall s r q, reachable s -> unmixed s -> r_anon (rsc s r) = true \/ q = None -> succeeds s (OResRelease r q).
Proof.
  intros s r q R U H. apply succeeds_of; auto. intros n. apply res_release_safe; auto using reachable_Iv. destruct H; auto. congruence.
Qed.
Theorem C71_set_capacity_partial : forall s r cap, reachable s -> unmixed s -> succeeds s (OSetCap r cap).
Proof. intros s r cap R U. apply succeeds_of; auto. intros n. apply set_cap_safe; auto using reachable_Iv. Qed.
Theorem C71_cancel_partial : forall s c, reachable s -> unmixed s -> succeeds s (OCancel c).
Proof. intros s c R U. apply succeeds_of; auto. intros n. apply cancel_safe; auto using reachable_Iv. Qed.
(** the end of a process *)
Theorem C71_end_partial : forall s, reachable s -> unmixed s -> succeeds s OEnd.
Proof. intros s R U. apply succeeds_of; auto. intros n. cbn [exec]. apply wp_bind, wp_get. apply terminate_safe; auto using reachable_Iv. Qed.
(** Environment.step *)
Theorem C71_step_partial : forall s, reachable s -> unmixed s -> succeeds s OStep.
Proof.
  intros s R U. apply succeeds_of; auto. intros n. apply step_safe; auto using reachable_Iv. apply reach_t_PI. eapply reach_p_t; eauto.
Qed.
(** State.set / reset and State.trigger *)
Theorem C71_states : forall s st v a m, reachable s -> succeeds s (OSet st v) /\ succeeds s (OTrigger st v a m).
Proof.
  intros s st v a m R. pose proof (reach_p_QI _ _ R) as [[E] _ _ G].
  assert (K : forall o m, exec 0 o s = m s -> (forall n, exec n o = exec 0 o) -> wp m (fun _ _ => True) (fun _ _ => False) s -> succeeds s o).
  { intros o p E0 EN W. unfold wp in W. exists 0%nat, (fst (p s)). intros n _. rewrite EN, E0. destruct (p s) as [s' [[]|e]]; cbn [fst]; [auto | destruct W]. }
  split; (eapply K; [reflexivity | reflexivity |]); [apply st_set_safe | apply st_trigger_safe]; auto.
Qed.
(** requests of anonymous and other resources together: 1 has all of resource 0 (capacity 5), 2 of the anonymous resource 1 (capacity 4) are in use; 2 asks 1 of resource 0 and
    puts 1 back in resource 1, 3 asks 1 of resource 0 and 3 of resource 1, 4 asks 3 of resource 0.  The release by 1 honors 2, which honors 3 by way of resource 1; the loop over the requesters
    of resource 0 goes on with 3, that is not there any more.  So 4 is not honored, although there is room. *)
Definition mixed : list op :=
  [mk 1; mk 2; mk 3; mk 4; mk 5; go; OStep; req 1 [(0%nat, 5, Fin 0)]; OStep; req 2 [(0%nat, 1, Fin 0); (1%nat, -1, Fin 0)]; OStep;
   req 3 [(0%nat, 1, Fin 0); (1%nat, 3, Fin 0)]; OStep; req 4 [(0%nat, 3, Fin 0)]; OStep; req 5 [(1%nat, 1, Fin 0)]; OStep].
Theorem C71_release_refuted : exists s s', reach_k s /\ claimer s 0 1 /\ (forall n, (19 <= n)%nat -> exec n (ORelease 1 [(0%nat, None)]) s = (s', Er AttrErr)) /\
  c_requests (comps s' 4%nat) = [(0%nat, 3)] /\ xleb (Fin 3) (avail (rsc s' 0%nat)) = true.
Proof.
  exists (after mixed), (fst (exec 19 (ORelease 1 [(0%nat, None)]) (after mixed))). split; [reached|]. split; [unfold claimer; vm_compute; auto|].
  split; [|split; vm_compute; reflexivity]. intros n L. eapply exec_fuel; [exact L | | discriminate].
  rewrite (surjective_pairing (exec 19 (ORelease 1 [(0%nat, None)]) (after mixed))) at 1. f_equal.
Qed.
(** cases: 1 holds resource 0, 2, 3 and 4 are waiting for it; nobody mixes *)
Lemma unmixed_none : forall s, (forall r, r_anon (rsc s r) = Nat.eqb r 1) -> (forall c, In 1%nat (keys (c_requests (comps s c))) -> keys (c_requests (comps s c)) = [1%nat]) -> unmixed s.
Proof.
  intros s A H c r r' I I'. rewrite !A. destruct (in_dec Nat.eq_dec 1%nat (keys (c_requests (comps s c)))) as [J|J].
  - rewrite (H c J) in I, I'. destruct I as [<-|[]], I' as [<-|[]]. reflexivity.
  - destruct (Nat.eqb_spec r 1) as [->|]; [contradiction|]. destruct (Nat.eqb_spec r' 1) as [->|]; [contradiction | reflexivity].
Qed.
Definition waiting3 : env := after (line ++ [OStep]).
Lemma waiting3_unmixed : unmixed waiting3.
Proof.
  apply unmixed_none; [intros r; destruct r as [|[|[|[|[|r]]]]]; vm_compute; reflexivity|].
  intros c. destruct c as [|[|[|[|[|c]]]]]; vm_compute; intros I; repeat (destruct I as [I|I]; [discriminate|]); destruct I.
Qed.
Example C71_case_release : reachable waiting3 /\ unmixed waiting3 /\ NoDup (map fst [(0%nat, Some 3)]) /\ claimer waiting3 0 1 /\
  map fst (qs waiting3 (QReq 0)) = [2; 3; 4]%nat /\ (let s' := fst (exec 19 (ORelease 1 [(0%nat, Some 3)]) waiting3) in map fst (qs s' (QReq 0)) = [3; 4]%nat /\ map fst (qs s' (QClaim 0)) = [1; 2]%nat).
Proof.
  split; [apply reach_k_p; unfold waiting3; reached|]. split; [apply waiting3_unmixed|]. split; [repeat constructor; intros []|].
  split; [unfold claimer; vm_compute; auto|]. split; [vm_compute; reflexivity|]. split; vm_compute; reflexivity.
Qed.
(** the same state for the other calls: all three are honored, or 3 and 4 with a capacity of 11 *)
Example C71_case_others : reachable waiting3 /\ unmixed waiting3 /\
  snd (exec 19 (OResRelease 0 None) waiting3) = Ok tt /\ map fst (qs (fst (exec 19 (OResRelease 0 None) waiting3)) (QReq 0)) = [4]%nat /\
  snd (exec 19 (OCancel 1) waiting3) = Ok tt /\ map fst (qs (fst (exec 19 (OCancel 1) waiting3)) (QReq 0)) = [4]%nat /\
  snd (exec 19 (OSetCap 0 (Fin 13)) waiting3) = Ok tt /\ qs (fst (exec 19 (OSetCap 0 (Fin 13)) waiting3)) (QReq 0) = [] /\
  snd (exec 19 OEnd waiting3) = Ok tt /\ map fst (qs (fst (exec 19 OEnd waiting3)) (QReq 0)) = [4]%nat /\
  snd (exec 19 OStep waiting3) = Ok tt.
Proof.
  split; [apply reach_k_p; unfold waiting3; reached|]. split; [apply waiting3_unmixed|].
  repeat split; vm_compute; reflexivity.
Qed.
(** 1 waits for state 0 to be 5, 2 waits for state 0 to be 5 and state 1 to be 2: set wakes 1 *)
Definition waiting_st : env := after [mk 1; mk 2; go; OStep; OWait 1 [(0%nat, Z.eqb 5, Fin 0)] false SNone (Fin 0) false None; OStep;
  OWait 2 [(0%nat, Z.eqb 5, Fin 0); (1%nat, Z.eqb 2, Fin 0)] true SNone (Fin 0) false None].
Example C71_case_states : reachable waiting_st /\ map fst (qs waiting_st (QWait 0)) = [1; 2]%nat /\ map fst (qs (fst (exec 19 (OSet 0 5%Z) waiting_st)) (QWait 0)) = [2]%nat.
Proof. split; [apply reach_k_p; unfold waiting_st; reached|]. split; vm_compute; reflexivity. Qed.
Print Assumptions C71_release_partial.
Print Assumptions C71_resource_release_partial.
Print Assumptions C71_set_capacity_partial.
Print Assumptions C71_cancel_partial.
Print Assumptions C71_end_partial.
Print Assumptions C71_step_partial.
Print Assumptions C71_states.
Print Assumptions C71_release_refuted.
