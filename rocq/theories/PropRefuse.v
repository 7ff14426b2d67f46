(** Property C83: a call does all it should, or it is refused and changes nothing. *)
From Coq Require Import QArith Lqa List Bool Arith ZArith Lia.
From Verif Require Import Base Kernel Wp KernelE KernelL KernelX KernelT KernelU KernelR KernelQ KernelS KernelI KernelP KernelO KernelA KernelB KernelC KernelD KernelF KernelG KernelV KernelW KernelH KernelZ PropRes PropReq PropWake PropGrant PropOnce PropSafe PropCalls PropStore.
Import ListNotations.
Open Scope Q_scope.

(** ** what the documentation says *)
(** the call raises e, and nothing at all has changed *)
Definition refused (s : env) (o : op) (e : exn) : Prop := forall n, (1 <= n)%nat -> exec n o s = (s, Er e).
(** situations in which a call is not allowed *)
Definition has_claim (s : env) (c r : nat) : Prop := In c (map fst (qs s (QClaim r))).
Inductive forbidden (s : env) : op -> exn -> Prop :=
| fb_passivate : forall c, c_status (comps s c) = Data -> forbidden s (OPassivate c) ValueErr
| fb_hold : forall c sp p u i cap, c_status (comps s c) = Data -> forbidden s (OHold c sp p u i cap) ValueErr
| fb_standby : forall c, c_status (comps s c) = Data -> forbidden s (OStandby c) ValueErr
| fb_interrupt : forall c, c_status (comps s c) <> Scheduled -> c_status (comps s c) <> Interrupted -> forbidden s (OInterrupt c) ValueErr
| fb_resume : forall c all p u, c_status (comps s c) <> Interrupted -> forbidden s (OResume c all p u) ValueErr
| fb_remaining : forall c v p u, c_status (comps s c) = Current \/ c_status (comps s c) = Standby -> forbidden s (ORemaining c v p u) ValueErr
| fb_activate : forall c a d p u kr kw cap, c_status (comps s c) = Data -> c_hasproc (comps s c) = false -> forbidden s (OActivate c a d p u false kr kw cap) AttrErr
| fb_release : forall c r q l, ~ has_claim s c r -> forbidden s (ORelease c ((r, q) :: l)) ValueErr
| fb_res_release : forall r q, r_anon (rsc s r) = false -> forbidden s (OResRelease r (Some q)) ValueErr
| fb_enter_twice : forall i k w, In i (items s k) -> forbidden s (OEnterStore i k w) ValueErr
| fb_enter_full : forall i k w, ~ In i (items s k) -> pos_ok w (qs s (QStore k)) = true -> xlt (kcap s k) (Fin (contents s k + 1)) -> forbidden s (OEnterStore i k w) QueueFull
| fb_enter_where : forall i k w, pos_ok w (qs s (QStore k)) = false -> forbidden s (OEnterStore i k w) ValueErr
| fb_leave : forall i k, ~ In i (items s k) -> forbidden s (OLeaveStore i k) ValueErr
| fb_from_list : forall c ks f key rp fl fp u cap, ks = [] \/ ~ NoDup ks -> forbidden s (OFromStore c ks f key rp fl fp u cap) ValueErr
| fb_to_list : forall c ks i rp p fl fp u cap, ks = [] \/ ~ NoDup ks -> forbidden s (OToStore c ks i rp p fl fp u cap) ValueErr
| fb_from_data : forall c ks f key rp fl fp u cap, c_status (comps s c) = Data -> forbidden s (OFromStore c ks f key rp fl fp u cap) ValueErr
| fb_to_data : forall c ks i rp p fl fp u cap, c_status (comps s c) = Data -> forbidden s (OToStore c ks i rp p fl fp u cap) ValueErr.

(** ** refusals change nothing *)
Lemma dup_list : forall ks : list nat, ks = [] \/ ~ NoDup ks -> negb (nonnil ks) || negb (Nat.eqb (length (nodup Nat.eq_dec ks)) (length ks)) = true.
Proof.
  intros ks [->|N]; [reflexivity|]. apply orb_true_iff. right. apply negb_true_iff, Nat.eqb_neq. intros E. apply N.
  clear N. induction ks as [|k t IH]; [constructor|]. cbn [nodup] in E. destruct (in_dec Nat.eq_dec k t) as [I|I].
  - exfalso. assert (L : (length (nodup Nat.eq_dec t) <= length t)%nat).
    { clear. induction t as [|x t IH]; cbn [nodup]; [auto|]. destruct (in_dec Nat.eq_dec x t); cbn; lia. }
    cbn in E. lia.
  - cbn in E. constructor; auto.
Qed.
Lemma list_ok : forall ks : list nat, ks <> [] -> NoDup ks -> negb (nonnil ks) || negb (Nat.eqb (length (nodup Nat.eq_dec ks)) (length ks)) = false.
Proof. intros ks N D. rewrite nodup_fixed_point by auto. rewrite Nat.eqb_refl. destruct ks; [congruence | reflexivity]. Qed.
Lemma claim_anon : forall s c r, reachable s -> has_claim s c r <-> r_anon (rsc s r) = false /\ alookup r (c_claims (comps s c)) <> None.
Proof.
  intros s c r R. destruct (C14_claimers s r c R) as (A & _ & _ & B). unfold has_claim. split.
  - intros H. split; [destruct (r_anon (rsc s r)) eqn:E; auto; rewrite B in H by auto; destruct H|]. apply A in H. destruct H as (v & H). congruence.
  - intros (_ & H). apply A. destruct (alookup r (c_claims (comps s c))) as [v|]; [eauto | congruence].
Qed.
Theorem C83_refused : forall s o e, reachable s -> forbidden s o e -> refused s o e.
Proof.
  intros s o e R F n N. destruct F; cbn [exec].
  - unfold passivate, check_notdata, bind, stat, get, when. rewrite H. cbn. rewrite H. reflexivity.
  - unfold hold, check_notdata, bind, stat, get, when. rewrite H. cbn. rewrite H. reflexivity.
  - unfold standby, check_notdata, bind, stat, get, when. rewrite H. cbn. rewrite H. reflexivity.
  - apply (C08_not_interruptible s n); auto.
  - unfold resume, bind, stat, get. destruct (steqb_spec (c_status (comps s c)) Interrupted); [contradiction | reflexivity].
  - unfold set_remaining, bind, stat, get. destruct H as [H|H]; rewrite H; reflexivity.
  - unfold activate, bind, stat, get, when. cbn [negb andb]. rewrite H, H0. reflexivity.
  - assert (NC : r_anon (rsc s r) = true \/ alookup r (c_claims (comps s c)) = None).
    { destruct (r_anon (rsc s r)) eqn:A; auto. right. destruct (alookup r (c_claims (comps s c))) eqn:B; auto. destruct H. apply claim_anon; auto. split; auto. congruence. }
    unfold release. cbn [mfor fst snd]. unfold bind at 1, get at 1. unfold bind at 1. destruct NC as [NC|NC]; [rewrite NC; reflexivity|].
    destruct (r_anon (rsc s r)); [reflexivity|]. unfold release1, bind, get. rewrite NC. reflexivity.
  - unfold res_release, bind, get. rewrite H. reflexivity.
  - destruct n as [|n]; [lia|]. rewrite enter_step. assert (X : inq i (qs s (QStore k)) = true) by (apply inq_iff; auto). rewrite X. reflexivity.
  - destruct n as [|n]; [lia|]. apply (C28_full_raises s n i k w); auto.
  - destruct n as [|n]; [lia|]. rewrite enter_step. destruct (inq i (qs s (QStore k))); [reflexivity|]. rewrite H. reflexivity.
  - destruct n as [|n]; [lia|]. cbn [item_leave]. unfold bind, get. assert (X : inq i (qs s (QStore k)) = false) by (apply inq_false; auto). rewrite X. reflexivity.
  - unfold from_store, bind, when. rewrite (dup_list _ H). reflexivity.
  - unfold to_store, bind, when. rewrite (dup_list _ H). reflexivity.
  - unfold from_store, check_notdata, bind, stat, get, when. destruct (_ || _); [reflexivity|]. unfold ret. rewrite H. cbn. rewrite H. reflexivity.
  - unfold to_store, check_notdata, bind, stat, get, when. destruct (_ || _); [reflexivity|]. unfold ret. rewrite H. cbn. rewrite H. reflexivity.
Qed.

(** ** calls that are allowed succeed *)
Definition timely (t : xq) (cap : option bool) (s : env) : Prop := past t s -> cap_in_effect cap s.
(** the time or the time limit is given in one way, and does not lie in the past (or cap_now is on) *)
Definition given (sp : spec) (cap : option bool) (s : env) : Prop := exists t, limit_time sp s = Some t /\ timely t cap s.
(** there is room for a whole item or for nothing *)
Definition whole_room (s : env) (k : nat) : Prop := xlt (Fin 0) (kmav s k) -> xle (Fin 1) (kmav s k).
Definition sensible (s : env) (o : op) : Prop :=
  match o with
  | OCreate _ _ _ _ _ _ _ | OActivate _ _ _ _ _ _ _ _ _ => forall c t cap, asked s o = Some (c, t, cap) -> timely t cap s
  | OHold _ sp _ _ _ cap => exists t, hold_time sp s = Some t /\ timely t cap s
  | ORun sp _ _ cap => given sp cap s
  | OResume c _ _ _ => xle (Fin 0) (c_rem (comps s c))
  | ORemaining _ v _ _ => xle (Fin 0) v
  | OPassivate _ | OInterrupt _ | OStandby _ | OSet _ _ | OTrigger _ _ _ _ | OTouch _ _ | OSkip _ _ | OResetNow _ => True
  | OWait c args _ f _ _ cap => args <> [] /\ given f cap s /\ c_status (comps s c) <> Data
  | OWaitFor c _ sts f _ _ cap => sts <> [] /\ NoDup sts /\ given f cap s /\ c_status (comps s c) <> Data
  | ORelease c args => unmixed s /\ NoDup (map fst args) /\ ((length args <= 1)%nat \/ forall r q, In (r, q) args -> has_claim s c r)
  | OResRelease _ _ | OSetCap _ _ | OCancel _ | OEnd | OStep => unmixed s
  | OEnterStore _ k _ | OLeaveStore _ k => putters s k = []
  | OFromStore _ ks _ key _ f _ _ cap => key = None /\ given f cap s /\ forall k, In k ks -> putters s k = []
  | OToStore _ ks i _ _ f _ _ cap => given f cap s /\ forall k, In k ks -> putters s k = [] /\ ~ In i (items s k) /\ whole_room s k
  | ORequest _ _ _ _ _ _ _ | OStoreCap _ _ | ORescan _ | OFilter _ _ => False
  end.
Lemma succeeds_at : forall n s o, wp (exec n o) (fun _ _ => True) (fun _ _ => False) s -> succeeds s o.
Proof.
  intros n s o W. unfold wp in W. exists n, (fst (exec n o s)). intros n' L. eapply exec_fuel; [exact L | | discriminate].
  destruct (exec n o s) as [s' [[]|e]]; [reflexivity | destruct W].
Qed.
Lemma wp_assoc : forall A (a b : M unit) (k : M A) (Q : A -> env -> Prop) X s, wp ((a ;;; b) ;;; k) Q X s -> wp (a ;;; b ;;; k) Q X s.
Proof. intros A a b k Q X s. unfold wp, bind. destruct (a s) as [s1 [[]|e]]; auto. Qed.
(** the clock and the settings do not change *)
Definition clk (s s' : env) : Prop := now s' = now s /\ off s' = off s /\ defcap s' = defcap s.
Lemma clk_po : preorder clk. Proof. constructor; unfold clk; intuition congruence. Qed.
Ltac fc := fgo clk_po; try (repeat split; reflexivity).
Lemma c_remove : forall c, frames clk (remove c). Proof. intros. unfold remove. fc. Qed.
Lemma c_resched : forall c t p u cap, frames clk (reschedule c t p u cap). Proof. intros. unfold reschedule, push. fc. Qed.
Lemma c_q_enter : forall q c p, frames clk (q_enter q c p). Proof. intros. unfold q_enter. fc. Qed.
Lemma c_q_leave : forall q c, frames clk (q_leave q c). Proof. intros. unfold q_leave. fc. Qed.
Lemma c_check_fail : forall c, frames clk (check_fail c). Proof. intros. unfold check_fail, leave_req. fc; auto using c_q_leave. Qed.
Lemma c_trywait_clk : forall c, frames clk (c_trywait c). Proof. intros. unfold c_trywait, leave_wait. fc; auto using c_q_leave, c_remove, c_resched. Qed.
(** all is in order, and the time is that of s *)
Record fine (s s' : env) : Prop := { fi_c : clk s s'; fi_e : EI s'; fi_g : GI none s' }.
Lemma fine_comp : forall s s' c f, fine s s' -> (forall x, lists (f x) = lists x) -> (forall x, c_onev (f x) = c_onev x /\ c_sched (f x) = c_sched x /\ c_status (f x) = c_status x) -> fine s (m_comp c f s').
Proof.
  intros s s' c f [C E G] L H. constructor; [exact C | | apply GI_comp; auto]. eapply EI_Eeq; [exact E|]. apply Eeq_m_comp; apply H.
Qed.
Lemma fine_frames : forall A (m : M A) s s1, fine s s1 -> frames clk m -> frames RE m -> frames (RG none) m -> wp m (fun _ _ => True) (fun _ _ => False) s1 ->
  wp m (fun _ s' => fine s s') (fun _ _ => False) s1.
Proof.
  intros A m s s1 [C E G] F1 F2 F3 W. specialize (F1 s1). specialize (F2 s1). specialize (F3 s1). unfold wp in *.
  destruct (m s1) as [s' [x|e]]; cbn [fst] in *; auto. constructor; auto. eapply (po_trans _ clk_po); eauto.
Qed.
(** the beginning of most calls: c is off the event list and out of all queues *)
Lemma prep : forall c s s1, fine s s1 -> wp (remove c ;;; check_fail c) (fun _ s' => fine s s' /\ free c s') (fun _ _ => False) s1.
Proof.
  intros c s s1 F. pose proof (ready_prep c s1 (fi_e _ _ F) (fi_g _ _ F)) as W.
  eapply wp_conseq; [eapply wp_conjX with (X := fun _ _ => False); [apply fine_frames; [exact F | | | |] | exact W | auto] | cbv beta | auto].
  - apply (fr_bind _ clk_po); auto using c_remove, c_check_fail.
  - apply (fr_bind _ RE_po); auto using re_remove; intros; apply RE_of_Eeq; auto with eeq.
  - apply (fr_bind _ (RG_po none)); auto using gq_remove, gq_check_fail.
  - eapply wp_conseq; [exact W | auto | auto].
  - intros _ s' (A & _ & B & _). auto.
Qed.
Definition leaves (c : nat) : M unit := st <- stat c ;; when (negb (steqb st Current)) (check_notdata c ;;; check_notmain c ;;; remove c ;;; check_fail c).
Lemma leaves_ok : forall c s s1, fine s s1 -> c_status (comps s1 c) <> Data -> c <> main -> (c_status (comps s1 c) = Current -> free c s1) ->
  wp (leaves c) (fun _ s' => fine s s' /\ free c s') (fun _ _ => False) s1.
Proof.
  intros c s s1 F D M I. unfold leaves. apply wp_bind, wp_stat, wp_when; intros C.
  - apply wp_bind. unfold check_notdata. apply wp_bind, wp_stat, wp_when; intros D2; [apply steqb_iff in D2; contradiction|].
    apply wp_bind. unfold check_notmain. apply wp_when; intros M2; [apply Nat.eqb_eq in M2; contradiction|]. apply prep; auto.
  - apply negb_false_iff, steqb_iff in C. auto.
Qed.
Lemma leaves_bind : forall A c (k : M A) s, (st <- stat c ;; when (negb (steqb st Current)) (check_notdata c ;;; check_notmain c ;;; remove c ;;; check_fail c) ;;; k) s = (leaves c ;;; k) s.
Proof. intros. unfold leaves, bind, stat, get. destruct (when _ _ s) as [s1 [[]|e]]; reflexivity. Qed.
Lemma timely_iff : forall t cap s s1, now s1 = now s -> defcap s1 = defcap s -> timely t cap s -> xltb t (Fin (now s1)) = true -> capped cap s1 = false -> False.
Proof.
  intros t cap s s1 N D T L C. rewrite N in L. assert (C1 : capped cap s = true) by (apply capped_iff, T, xltb_iff; auto).
  unfold capped in *. destruct cap; [congruence|]. congruence.
Qed.
Lemma reschedule_ok : forall c t p u cap s s1, now s1 = now s -> defcap s1 = defcap s -> timely t cap s -> wp (reschedule c t p u cap) (fun _ _ => True) (fun _ _ => False) s1.
Proof.
  intros c t p u cap s s1 N D T. eapply wp_conseq; [apply w_reschedule | auto | cbv beta]. intros e s' (_ & _ & L & C). eapply timely_iff; eauto.
Qed.
Lemma resched_now : forall c s, wp (n <- get now ;; reschedule c (Fin n) (Fin 0) false (Some false)) (fun _ _ => True) (fun _ _ => False) s.
Proof.
  intros c s. apply wp_bind, wp_get. eapply reschedule_ok; eauto. intros L. unfold past in L. cbn in L. lra.
Qed.
Lemma wake_ok : forall c s, EI s -> wp (remove c ;;; setc c (w_status Scheduled) ;;; n <- get now ;; reschedule c (Fin n) (Fin 0) false (Some false)) (fun _ s' => EI s') (fun _ _ => False) s.
Proof.
  intros c s E. pose proof (wake_up_ok s c E) as (s' & K & U). assert (F : frames RE (wake_up c)) by (unfold wake_up; apply re_rrs_0).
  specialize (F s E). unfold wp. change (remove c ;;; setc c (w_status Scheduled) ;;; n <- get now ;; reschedule c (Fin n) (Fin 0) false (Some false)) with (wake_up c). rewrite K in *. auto.
Qed.

Lemma PI_fine : forall s, PI s -> fine s s.
Proof. intros s [Q S]. constructor; [apply clk_po | apply Q | apply Q]. Qed.
Lemma PI_free : forall s c, PI s -> c_status (comps s c) = Current -> free c s.
Proof. intros s c [Q S] C. apply free_idle; try apply Q. rewrite C. auto with idle. Qed.
Lemma limit_ok : forall f cap s s1, given f cap s -> clk s s1 -> wp (fail_time f) (fun t s' => s' = s1 /\ timely t cap s) (fun _ _ => False) s1.
Proof.
  intros f cap s s1 (t & T & H) (N & O & _). destruct f; cbn in T; try discriminate; injection T as <-; cbn [fail_time]; [apply wp_ret | apply wp_get | apply wp_get]; rewrite ?N, ?O; auto.
Qed.
Lemma stay : forall c t p u cap s s1 st, clk s s1 -> timely t cap s -> wp (setc c (w_status st) ;;; reschedule c t p u cap) (fun _ _ => True) (fun _ _ => False) s1.
Proof. intros c t p u cap s s1 st (N & _ & D) T. apply wp_bind, wp_setc. apply reschedule_ok with (s := s); auto. Qed.
(** the end of wait and wait_for *)
Lemma wait_end : forall c t p u cap s s1, fine s s1 -> c_waits (comps s1 c) <> [] -> timely t cap s ->
  wp (ws <- get (fun s => c_waits (comps s c)) ;; when (negb (nonnil ws)) (raise TypeErr) ;;; n <- get now ;; setc c (w_rem (xsubq t n)) ;;; c_trywait c ;;;
      ws' <- get (fun s => c_waits (comps s c)) ;; when (nonnil ws') (setc c (w_status Waiting) ;;; reschedule c t p u cap)) (fun _ _ => True) (fun _ _ => False) s1.
Proof.
  intros c t p u cap s s1 F W T. apply wp_bind, wp_get, wp_bind. apply wp_when; intros B; [apply negb_true_iff, nonnil_false in B; contradiction|].
  apply wp_bind, wp_get, wp_bind, wp_setc, wp_bind. apply fine_comp with (c := c) (f := w_rem (xsubq t (now s1))) in F; [|auto|auto].
  eapply wp_conseq; [apply (fine_frames _ _ s); [exact F | apply c_trywait_clk | apply re_c_trywait | apply gq_c_trywait |] | cbv beta | auto].
  - eapply wp_conseq; [apply c_trywait_safe; apply F | auto | auto].
  - intros _ s2 F2. apply wp_bind, wp_get, wp_when; intros _; [|auto]. eapply stay; [apply F2 | exact T].
Qed.
Lemma wait_succeeds : forall c args al f p u cap s, PI s -> c <> main -> args <> [] -> given f cap s -> c_status (comps s c) <> Data ->
  wp (wait c args al f p u cap) (fun _ _ => True) (fun _ _ => False) s.
Proof.
  intros c args al f p u cap s P M A G D. unfold wait. apply wp_bind, wp_setc. eapply wp_of_eq; [apply leaves_bind|]. apply wp_bind.
  assert (F : fine s (m_comp c (w_cond None) s)) by (apply fine_comp; auto using PI_fine).
  eapply wp_conseq; [apply leaves_ok with (1 := F); rewrite ?comps_same; auto | cbv beta | auto].
  { intros C. apply Rfr_comp; [auto | apply PI_free; auto]. }
  intros _ s1 (F1 & _). apply wp_bind, wp_setc, wp_bind, wp_setc, wp_bind.
  apply fine_comp with (c := c) (f := w_wall al) in F1; [|auto|auto]. apply fine_comp with (c := c) (f := w_failed false) in F1; [|auto|auto].
  eapply wp_conseq; [apply limit_ok with (cap := cap) (s := s); [auto | apply F1] | cbv beta | auto]. intros t s2 (-> & T). apply wp_bind.
  set (s2 := m_comp c (w_failed false) _) in *. clearbody s2.
  assert (K : forall l z, fine s z -> wp (mfor l (wait1 c)) (fun _ z' => fine s z' /\ (l <> [] \/ c_waits (comps z c) <> [] -> c_waits (comps z' c) <> [])) (fun _ _ => False) z).
  { induction l as [|((st, h), pr) l IH]; intros z Fz; cbn [mfor]; [apply wp_ret; split; [auto|tauto]|]. apply wp_bind.
    eapply wp_conseq with (X := fun _ _ => False); [eapply wp_conjX with (X := fun _ _ => False) (Q2 := fun _ z' => c_waits (comps z' c) <> []) (X2 := fun _ _ => False) | cbv beta | auto].
    - apply fine_frames; [exact Fz | unfold wait1; fc; apply c_q_enter | apply RE_of_Eeq; auto with eeq | apply gq_wait1 |].
      unfold wait1. apply wp_bind, wp_get, wp_bind. apply wp_when; intros B; [|apply wp_setc; auto]. unfold q_enter. apply wp_bind, wp_get, wp_if; intros I; [|apply wp_put, wp_setc; auto].
      exfalso. apply inq_iff in I. apply (gi_mem _ _ (fi_g _ _ Fz) (QWait st) c eq_refl) in I. destruct I as (I & _). cbn in I. apply memb_iff in I. rewrite I in B. discriminate.
    - unfold wait1. apply wp_bind, wp_get, wp_bind. assert (N : forall (l : list (nat * (Z -> bool))) x, l ++ [x] <> []) by (intros [] x; discriminate).
      apply wp_when; intros B; [|apply wp_setc; rewrite comps_same; apply N]. unfold q_enter. apply wp_bind, wp_get, wp_if; intros I; [|apply wp_put, wp_setc; rewrite comps_same; apply N].
      exfalso. apply inq_iff in I. apply (gi_mem _ _ (fi_g _ _ Fz) (QWait st) c eq_refl) in I. destruct I as (I & _). cbn in I. apply memb_iff in I. rewrite I in B. discriminate.
    - auto.
    - intros _ z1 (F1' & W1). eapply wp_conseq; [apply IH; auto | cbv beta | auto]. intros _ z2 (F2 & W2). split; auto. }
  eapply wp_conseq; [apply K; exact F1 | cbv beta | auto]. intros _ s3 (F3 & W3). apply wait_end with (s := s); auto.
Qed.
Lemma wait_for_succeeds : forall c cond sts f p u cap s, PI s -> c <> main -> sts <> [] -> NoDup sts -> given f cap s -> c_status (comps s c) <> Data ->
  wp (wait_for c cond sts f p u cap) (fun _ _ => True) (fun _ _ => False) s.
Proof.
  intros c cond sts f p u cap s P M A ND G D. unfold wait_for. eapply wp_of_eq; [apply leaves_bind|]. apply wp_bind.
  eapply wp_conseq; [apply leaves_ok with (s := s); auto using PI_fine, PI_free | cbv beta | auto].
  intros _ s1 (F1 & W1). apply wp_bind, wp_setc, wp_bind. apply fine_comp with (c := c) (f := w_failed false) in F1; [|auto|auto].
  eapply wp_conseq; [apply limit_ok with (cap := cap) (s := s); [auto | apply F1] | cbv beta | auto]. intros t s2 (-> & T). apply wp_bind, wp_setc, wp_bind.
  apply fine_comp with (c := c) (f := w_cond (Some cond)) in F1; [|auto|auto].
  assert (W0 : c_waits (comps (m_comp c (w_cond (Some cond)) (m_comp c (w_failed false) s1)) c) = []) by (rewrite !comps_same; apply W1).
  set (s2 := m_comp c (w_cond (Some cond)) _) in *. clearbody s2.
  assert (K : forall l z, fine s z -> NoDup (map fst (c_waits (comps z c)) ++ l) ->
    wp (mfor l (fun st' => setc c (fun x => w_waits (c_waits x ++ [(st', fun _ => true)]) x) ;;; q_enter (QWait st') c p))
       (fun _ z' => fine s z' /\ map fst (c_waits (comps z' c)) = map fst (c_waits (comps z c)) ++ l) (fun _ _ => False) z).
  { induction l as [|st l IH]; intros z Fz Nz; cbn [mfor]; [apply wp_ret; rewrite app_nil_r; auto|]. apply wp_bind.
    assert (NI : ~ In st (map fst (c_waits (comps z c)))) by (intros I; apply NoDup_remove_2 in Nz; apply Nz, in_or_app; auto).
    eapply wp_conseq with (X := fun _ _ => False) (Q := fun _ z' => fine s z' /\ map fst (c_waits (comps z' c)) = map fst (c_waits (comps z c)) ++ [st]); [|cbv beta | auto].
    - apply wp_bind, wp_setc. unfold q_enter. apply wp_bind, wp_get, wp_if; intros I.
      + exfalso. apply inq_iff in I. apply (gi_mem _ _ (fi_g _ _ Fz) (QWait st) c eq_refl) in I. destruct I as (I & _). auto.
      + apply wp_put. split.
        * destruct Fz as [C E GG]. constructor; [exact C | |].
          -- eapply EI_Eeq; [exact E|]. apply (po_trans _ Eeq_po) with (b := m_comp c (fun x => w_waits (c_waits x ++ [(st, fun _ => true)]) x) z); [apply Eeq_m_comp; reflexivity | eeq].
          -- apply GI_enter; auto.
             ++ apply GI_set with (W := none); auto.
                ** intros x _. unfold KernelQ.plus, none. destruct x; cbn; try (intuition congruence).
                   rewrite map_fst_snoc, in_app_iff. cbn. destruct (Nat.eq_dec s0 st) as [->|]; intuition congruence.
                ** unfold KernelQ.plus, none. intuition.
                ** apply (gi_ks _ _ GG c).
             ++ rewrite comps_same. cbn. rewrite map_fst_snoc, in_app_iff. cbn. auto.
        * change (comps (m_q ?a ?b ?d)) with (comps d). rewrite comps_same. cbn. apply map_fst_snoc.
    - intros _ z1 (F2 & E2). eapply wp_conseq; [apply IH; auto; rewrite E2, <- app_assoc; exact Nz | cbv beta | auto].
      intros _ z2 (F3 & E3). split; auto. rewrite E3, E2, <- app_assoc. reflexivity. }
  eapply wp_conseq; [apply K; [exact F1 | rewrite W0; exact ND] | cbv beta | auto]. intros _ s3 (F3 & W3). apply wait_end with (s := s); auto.
  intros Z. rewrite Z, W0 in W3. cbn in W3. congruence.
Qed.

(** stores at which nobody waits to put something *)
Lemma leave_alone : forall n k i s, putters s k = [] -> In i (items s k) -> item_leave (S n) k i s = (out k i s, Ok tt).
Proof.
  intros n k i s P I. rewrite leave_step. replace (inq i (qs s (QStore k))) with true by (symmetry; apply inq_iff; exact I). rewrite P. cbn [hd_error].
  destruct (xltb _ _); reflexivity.
Qed.
Lemma fine_out : forall s s1 k i, fine s s1 -> fine s (out k i s1).
Proof.
  intros s s1 k i [C E G]. constructor; [exact C | eapply EI_Eeq; [exact E | unfold out; eeq] |].
  unfold out. apply (RG_same none (m_q (QStore k) (adel i) s1)); auto. apply GI_store; auto. apply nd_adel, (gi_nd _ _ G).
Qed.
Lemma fine_inn : forall s s1 k i w, fine s s1 -> fits s1 k i w -> fine s (inn k i w s1).
Proof.
  intros s s1 k i w [C E G] (N & O & _). constructor; [exact C | eapply EI_Eeq; [exact E | unfold inn; eeq] |].
  unfold inn. apply GI_store; [|eapply RG_same; [| |exact G]; reflexivity]. apply nd_ins_at; auto. apply (gi_nd _ _ G).
Qed.
Lemma give_ok : forall d i s s1, fine s s1 -> wp (leave_from d ;;; give d i) (fun _ _ => True) (fun _ _ => False) s1.
Proof.
  intros d i s s1 F. apply wp_bind.
  eapply wp_conseq with (X := fun _ _ => False); [eapply wp_conjX with (X := fun _ _ => False); [apply w_leave_from with (X := fun _ _ => False) (2 := fi_g _ _ F); auto | apply (frames_wp _ Eeq); unfold leave_from; fgo Eeq_po; auto with eeq | auto] | cbv beta | auto].
  intros _ s2 (_ & E2). unfold give. apply wp_bind, wp_setc, wp_bind, wp_setc. eapply wp_conseq; [apply wake_ok | auto | auto].
  eapply EI_Eeq; [eapply EI_Eeq; [apply F | exact E2]|]. eapply (po_trans _ Eeq_po); apply Eeq_m_comp; reflexivity.
Qed.
Lemma enter_alone : forall n k i w s0 s, fine s0 s -> putters s k = [] -> fits s k i w -> wp (item_enter (S (S n)) k i w) (fun _ s' => EI s') (fun _ _ => False) s.
Proof.
  intros n k i w s0 s F P FT.
  assert (W : wp (item_enter (S (S n)) k i w) (fun _ _ => True) (fun _ _ => False) s).
  { destruct FT as (N & O & L). unfold wp at 1. rewrite enter_step. replace (inq i (qs s (QStore k))) with false by (symmetry; apply inq_false; exact N). rewrite O, L. cbn [negb].
    destruct (taker s k i) as [d|]; [|auto].
    assert (I : In i (items (inn k i w s) k)) by (apply items_inn; auto).
    assert (P1 : putters (inn k i w s) k = []) by (unfold putters; rewrite qs_inn by discriminate; exact P).
    pose proof (leave_alone n k i (inn k i w s) P1 I) as LA. unfold bind at 1. rewrite LA.
    pose proof (give_ok d i s0 _ (fine_out _ _ k i (fine_inn s0 s k i w F (conj N (conj O L))))) as GO. exact GO. }
  pose proof (re_item_enter (S (S n)) k i w s (fi_e _ _ F)) as E. unfold wp in *. destruct (item_enter (S (S n)) k i w s) as [s' [x|e]]; auto.
Qed.
(** taking one's place in the lines of several stores *)
Lemma line_up : forall (K : nat -> qref) c p ks s s1, (forall a b, K a = K b -> a = b) -> clk s s1 -> NoDup ks -> (forall k, In k ks -> ~ mem s1 (K k) c) ->
  wp (mfor ks (fun k => q_enter (K k) c p)) (fun _ s' => clk s s') (fun _ _ => False) s1.
Proof.
  intros K c p ks s s1 J C. revert s1 C. induction ks as [|k t IH]; intros s1 C ND H; cbn [mfor]; [apply wp_ret; auto|].
  apply NoDup_cons_iff in ND. destruct ND as (N & ND). apply wp_bind. unfold q_enter at 1. apply wp_bind, wp_get, wp_if; intros I; [exfalso; apply inq_iff in I; apply (H k); [left; auto | exact I]|].
  apply wp_put. apply IH; auto. intros k' I' M. unfold mem in M. rewrite qs_m_q in M. destruct (qeqb_spec (K k') (K k)) as [E|E]; [apply J in E; subst; auto|]. apply (H k'); [right; auto | exact M].
Qed.
Lemma find_item_in : forall s f key ks best lastk i k, find_item s f key best ks lastk = (Some i, k) -> key = None -> best = None -> In k ks /\ In i (items s k).
Proof.
  intros s f key ks best lastk i k H -> ->. revert lastk H. induction ks as [|a t IH]; intros lastk H; cbn [find_item] in H; [discriminate|].
  destruct (find f (map fst (qs s (QStore a)))) as [x|] eqn:E.
  - injection H as -> ->. apply find_some in E. split; [left; auto | apply E].
  - apply IH in H. split; [right|]; apply H.
Qed.
(** what leaving the lines does to the stores *)
Definition shr (s s' : env) : Prop :=
  (forall k x, In x (putters s' k) -> In x (putters s k)) /\ (forall k, qs s' (QStore k) = qs s (QStore k)) /\ kmav s' = kmav s /\ kcap s' = kcap s.
Lemma shr_po : preorder shr.
Proof. constructor; unfold shr; [repeat split; auto|]. intros a b c (A & B & C & D) (E & F & G & H). split; [auto|]. split; [intros; rewrite F; auto|]. split; congruence. Qed.
Lemma shr_same : forall s s', qs s' = qs s -> kmav s' = kmav s -> kcap s' = kcap s -> shr s s'.
Proof. unfold shr, putters. intros s s' -> -> ->. repeat split; auto. Qed.
Ltac fs := fgo shr_po; try (apply shr_same; reflexivity).
Lemma h_q_leave : forall q c, (forall k, q <> QStore k) -> frames shr (q_leave q c).
Proof.
  intros q c N. unfold q_leave. fs. split; [|split; [|split; reflexivity]].
  - intros k x. unfold putters. rewrite qs_m_q. destruct (qeqb_spec (QTo k) q) as [E|E]; auto. subst q. intros I. apply keys_adel_in in I. apply I.
  - intros k. rewrite qs_m_q. destruct (qeqb_spec (QStore k) q) as [E|E]; auto. subst q. destruct (N k). auto.
Qed.
Lemma h_leaves : forall c, frames shr (leaves c).
Proof. intros. unfold leaves, check_notdata, check_notmain, remove, check_fail, leave_req. fs; apply h_q_leave; discriminate. Qed.
Lemma no_in : forall A (l : list A), (forall x, ~ In x l) -> l = [].
Proof. intros A [|a l] H; auto. destruct (H a). left. auto. Qed.
Lemma shr_none : forall s s' k, shr s s' -> putters s k = [] -> putters s' k = [].
Proof. intros s s' k (H & _) E. apply no_in. intros x I. apply H in I. rewrite E in I. destruct I. Qed.
Lemma begin_ok : forall A c fl cap s (k : xq -> M A) (Q : A -> env -> Prop), PI s -> c <> main -> given fl cap s -> c_status (comps s c) <> Data ->
  (forall t s1, fine s s1 -> free c s1 -> shr s s1 -> timely t cap s -> wp (k t) Q (fun _ _ => False) s1) ->
  wp (leaves c ;;; t <- fail_time fl ;; setc c (w_failed false) ;;; k t) Q (fun _ _ => False) s.
Proof.
  intros A c fl cap s k Q P M G D H. apply wp_bind.
  eapply wp_conseq with (X := fun _ _ => False); [eapply wp_conjX with (X := fun _ _ => False); [apply leaves_ok with (s := s); auto using PI_fine, PI_free | apply (frames_wp _ _ _ _ (h_leaves c)) | auto] | cbv beta | auto].
  intros _ s1 ((F1 & W1) & H1). apply wp_bind. eapply wp_conseq; [apply limit_ok with (cap := cap) (s := s); [auto | apply F1] | cbv beta | auto]. intros t s2 (-> & T).
  apply wp_bind, wp_setc. apply H; auto.
  - apply fine_comp; auto.
  - apply Rfr_comp; auto.
Qed.
Lemma not_mem : forall s s1 c k, fine s s1 -> free c s1 -> ~ mem s1 (QFrom k) c /\ ~ mem s1 (QTo k) c.
Proof.
  intros s s1 c k F (_ & _ & FR & TO). split; intros I; apply (gi_mem _ _ (fi_g _ _ F)) in I; try reflexivity; destruct I as (I & _); cbn in I.
  - rewrite FR in I. destruct I.
  - rewrite TO in I. destruct I.
Qed.
Lemma from_succeeds : forall n c ks f rp fl fp u cap s, PI s -> c <> main -> ks <> [] -> NoDup ks -> given fl cap s -> c_status (comps s c) <> Data -> (forall k, In k ks -> putters s k = []) ->
  wp (from_store (S n) c ks f None rp fl fp u cap) (fun _ _ => True) (fun _ _ => False) s.
Proof.
  intros n c ks f rp fl fp u cap s P M N ND G D PU. unfold from_store. apply wp_bind. rewrite list_ok by auto. apply wp_ret.
  eapply wp_of_eq; [apply leaves_bind|]. apply begin_ok with (cap := cap); auto. intros t s1 F1 W1 H1 T.
  apply wp_bind, wp_get. destruct (find_item s1 f None None ks 0) as [[i|] k] eqn:FI.
  - apply find_item_in in FI; auto. destruct FI as (I & J). apply wp_bind. unfold wp at 1. rewrite leave_alone; [|eapply shr_none; [exact H1|]; auto | auto].
    pose proof (fine_out _ _ k i F1) as F2. apply wp_bind, wp_setc. eapply wp_conseq; [apply wake_ok | auto | auto].
    eapply EI_Eeq; [apply F2 | apply Eeq_m_comp; reflexivity].
  - apply wp_bind, wp_setc, wp_bind. eapply wp_conseq; [apply (line_up QFrom c rp ks s) | cbv beta | auto].
    + intros a b E. injection E. auto.
    + apply F1.
    + auto.
    + intros k' _. apply (not_mem s s1 c k' F1 W1).
    + intros _ s2 C2. apply wp_bind, wp_setc, wp_bind, wp_setc, wp_bind, wp_setc. apply reschedule_ok with (s := s); auto; apply C2.
Qed.
Lemma whole_fits : forall s k i p, reachable s -> ~ In i (items s k) -> whole_room s k -> xltb (Fin 0) (kmav s k) = true -> forall s1, shr s s1 -> fits s1 k i (PSorted p).
Proof.
  intros s k i p R N W B s1 (_ & H & _ & KC). apply xltb_iff in B. apply W in B. pose proof (C28_available s k) as AV. rewrite contents_len in AV.
  assert (AV' : xeq (kmav s k) (xsubq (kcap s k) (xlen (qs s (QStore k))))) by (apply AV; apply reachable_reach; auto).
  unfold fits, items. rewrite H, KC. split; [exact N|]. split; [reflexivity|]. destruct (xltb _ _) eqn:L; auto. apply xltb_iff in L. exfalso.
  destruct (kcap s k) as [q|], (kmav s k) as [m|]; cbn in *; try contradiction; lra.
Qed.
Lemma to_succeeds : forall n c ks i rp p fl fp u cap s, reachable s -> PI s -> c <> main -> ks <> [] -> NoDup ks -> given fl cap s -> c_status (comps s c) <> Data ->
  (forall k, In k ks -> putters s k = [] /\ ~ In i (items s k) /\ whole_room s k) ->
  wp (to_store (S (S n)) c ks i rp p fl fp u cap) (fun _ _ => True) (fun _ _ => False) s.
Proof.
  intros n c ks i rp p fl fp u cap s R P M N ND G D PU. unfold to_store. apply wp_bind. rewrite list_ok by auto. apply wp_ret.
  eapply wp_of_eq; [apply leaves_bind|]. apply begin_ok with (cap := cap); auto. intros t s1 F1 W1 H1 T. apply wp_bind.
  assert (K : forall l, incl l ks -> wp (to_try (S (S n)) c i p l) (fun b s' => b = false -> s' = s1) (fun _ _ => False) s1).
  { induction l as [|k l IH]; intros IN; cbn [to_try]; [apply wp_ret; auto|]. apply wp_bind, wp_get, wp_if; intros B.
    - destruct (PU k (IN k (or_introl eq_refl))) as (A1 & A2 & A3). assert (KM : kmav s1 = kmav s) by apply H1. rewrite KM in B.
      apply wp_bind. eapply wp_conseq; [apply (enter_alone n k i (PSorted p) s s1 F1); [eapply shr_none; eauto | eapply whole_fits; eauto] | cbv beta | auto].
      intros _ s2 E2. apply wp_bind, wp_setc, wp_bind, wp_setc. eapply wp_of_eq; [apply wake_up_bind|]. apply wp_bind.
      eapply wp_conseq; [apply wake_ok | cbv beta; intros _ s3 _; apply wp_ret; discriminate | auto].
      eapply EI_Eeq; [exact E2|]. eapply (po_trans _ Eeq_po); apply Eeq_m_comp; reflexivity.
    - apply IH. intros x I. apply IN. right. auto. }
  eapply wp_conseq; [apply K; apply incl_refl | cbv beta | auto]. intros [|] s2 E2; [apply wp_ret; auto|]. rewrite E2 by auto. clear s2 E2.
  apply wp_bind. eapply wp_conseq; [apply (line_up QTo c rp ks s) | cbv beta | auto].
  - intros a b E. injection E. auto.
  - apply F1.
  - auto.
  - intros k' _. apply (not_mem s s1 c k' F1 W1).
  - intros _ s2 C2. apply wp_bind, wp_setc, wp_bind, wp_setc, wp_bind, wp_setc, wp_bind, wp_setc. apply reschedule_ok with (s := s); auto; apply C2.
Qed.

(** the scheduling calls *)
Lemma asked_succeeds : forall n o s c t cap, PI s -> wf s o -> asked s o = Some (c, t, cap) -> timely t cap s -> c_status (comps s c) <> Data -> wp (exec n o) (fun _ _ => True) (fun _ _ => False) s.
Proof.
  intros n o s c t cap P W A T D. destruct (asked_post n o s c t cap P W A) as (p & u & K). eapply wp_conseq; [exact K | auto | cbv beta].
  intros e s' (_ & [(L & C & _)|H]); [|contradiction]. eapply timely_iff; eauto.
Qed.
Lemma hold_succeeds : forall c sp p u i cap s, PI s -> (exists t, hold_time sp s = Some t /\ timely t cap s) -> c_status (comps s c) <> Data -> wp (hold c sp p u i cap) (fun _ _ => True) (fun _ _ => False) s.
Proof.
  intros c sp p u i cap s P (t & TT & T) D. unfold hold. apply wp_bind, wp_stat, wp_bind.
  apply wp_conseq with (Q := fun _ s1 => fine s s1) (X := fun _ _ => False); [|cbv beta|auto].
  - apply wp_when; intros _; [|apply PI_fine; auto]. apply wp_bind. unfold check_notdata. apply wp_bind, wp_stat, wp_when; intros D2; [apply steqb_iff in D2; contradiction|].
    eapply wp_conseq; [apply prep with (s := s); apply PI_fine; auto | cbv beta; tauto | auto].
  - intros _ s1 [(N & O & DC) E G]. apply wp_bind. apply wp_conseq with (Q := fun t' s2 => t' = t /\ s2 = s1) (X := fun _ _ => False); [|cbv beta|auto].
    + destruct sp; cbn in TT; try congruence; injection TT as <-; apply wp_get; rewrite ?N, ?O; auto.
    + intros t' s2 (-> & ->). apply wp_bind, wp_get, wp_bind. rewrite N.
      apply wp_conseq with (Q := fun t' s2 => s2 = s1 /\ ~ past t' s) (X := fun _ _ => False); [|cbv beta|auto].
      * destruct (xltb t (Fin (now s))) eqn:L.
        -- apply wp_bind, wp_get. apply wp_if; intros C; [apply wp_get; split; auto; rewrite N; unfold past; cbn; lra|].
           exfalso. eapply (timely_iff t cap s s1); eauto. rewrite N. auto.
        -- apply wp_ret. split; auto. unfold past. rewrite <- xltb_iff. congruence.
      * intros t' s2 (-> & NP). apply wp_if; intros _; [apply wp_bind, wp_get, wp_bind, wp_setc, wp_bind, wp_setc, wp_bind, wp_setc, wp_setc; auto|].
        apply wp_bind, wp_setc. apply reschedule_ok with (s := s); auto. intros H. contradiction.
Qed.
Lemma xadd_nonneg : forall t s, xle (Fin 0) t -> ~ past (xadd (Fin (now s)) t) s /\ ~ past (xadd t (Fin (now s))) s.
Proof. intros [q|] s H; cbn in *; split; unfold past; cbn; try tauto; lra. Qed.

Lemma remove_ok : forall c s s1, fine s s1 -> wp (remove c) (fun _ s' => fine s s') (fun _ _ => False) s1.
Proof.
  intros c s s1 F. apply fine_frames; auto using c_remove, re_remove, gq_remove. apply w_remove; auto. apply F.
Qed.
Lemma activate_succeeds : forall c a d p u pr kr kw cap s, PI s -> timely (at_time a d s) cap s -> negb pr && steqb (c_status (comps s c)) Data && negb (c_hasproc (comps s c)) = false ->
  wp (activate c a d p u pr kr kw cap) (fun _ _ => True) (fun _ _ => False) s.
Proof.
  intros c a d p u pr kr kw cap s P T B. unfold activate. apply wp_bind, wp_stat, wp_bind, wp_get, wp_bind. rewrite B. apply wp_ret. apply wp_bind.
  apply wp_conseq with (Q := fun _ s1 => fine s s1) (X := fun _ _ => False); [apply wp_when; intros _; [apply wp_setc, fine_comp; auto using PI_fine | apply PI_fine; auto] | cbv beta | auto].
  intros _ s1 F1. apply wp_bind. apply wp_conseq with (Q := fun _ s2 => fine s s2) (X := fun _ _ => False); [|cbv beta | auto].
  - apply wp_when; intros _; [|auto]. match goal with |- context [when ?b (check_fail c)] => destruct b end; cbn [when].
    + eapply wp_conseq; [apply prep with (s := s); auto | cbv beta; tauto | auto].
    + apply wp_bind. eapply wp_conseq; [apply remove_ok with (s := s); auto | cbv beta | auto]. intros _ s2 F2. apply wp_ret. auto.
  - intros _ s2 F2. apply wp_bind, wp_get. destruct (fi_c _ _ F2) as (N & O & D). apply wp_bind, wp_setc. apply reschedule_ok with (s := s); auto.
    unfold at_time in T. destruct a; rewrite ?N, ?O; auto.
Qed.
Lemma interrupt_succeeds : forall c s, PI s -> c_status (comps s c) = Scheduled \/ c_status (comps s c) = Interrupted -> wp (interrupt c) (fun _ _ => True) (fun _ _ => False) s.
Proof.
  intros c s P H. unfold interrupt. apply wp_bind, wp_stat. apply wp_if; intros B; [destruct H as [H|H]; rewrite H in B; discriminate|]. apply wp_if; intros B2; [apply wp_setc; auto|].
  apply wp_bind. unfold check_notdata. apply wp_bind, wp_stat, wp_when; intros D; [apply steqb_iff in D; destruct H; congruence|].
  apply wp_bind. eapply wp_conseq; [apply remove_ok with (s := s); apply PI_fine; auto | cbv beta | auto]. intros _ s1 _. apply wp_bind, wp_get, wp_bind, wp_setc, wp_bind, wp_setc, wp_bind, wp_setc, wp_setc. auto.
Qed.
Lemma passivate_succeeds : forall c s, PI s -> c_status (comps s c) <> Data -> wp (passivate c) (fun _ _ => True) (fun _ _ => False) s.
Proof.
  intros c s P D. unfold passivate. apply wp_bind, wp_stat, wp_bind. apply wp_conseq with (Q := fun _ _ => True) (X := fun _ _ => False); [|intros _ s1 _; apply wp_bind, wp_setc, wp_setc; auto | auto].
  apply wp_if; intros _; [apply wp_setc; auto|]. apply wp_bind. unfold check_notdata. apply wp_bind, wp_stat, wp_when; intros D2; [apply steqb_iff in D2; contradiction|].
  apply wp_assoc, wp_bind. eapply wp_conseq; [apply prep with (s := s); apply PI_fine; auto | cbv beta | auto]. intros _ s1 _. apply wp_bind, wp_get, wp_setc. auto.
Qed.
Lemma standby_succeeds : forall c s, PI s -> c_status (comps s c) <> Data -> c <> main -> wp (standby c) (fun _ _ => True) (fun _ _ => False) s.
Proof.
  intros c s P D M. unfold standby. eapply wp_of_eq; [apply leaves_bind|]. apply wp_bind.
  eapply wp_conseq; [apply leaves_ok with (s := s); auto using PI_fine, PI_free | cbv beta | auto]. intros _ s1 _. apply wp_bind, wp_get, wp_bind, wp_setc, wp_bind, wp_put, wp_setc. auto.
Qed.
Lemma resume_succeeds : forall c all p u s, PI s -> c_status (comps s c) = Interrupted -> xle (Fin 0) (c_rem (comps s c)) -> wp (resume c all p u) (fun _ _ => True) (fun _ _ => False) s.
Proof.
  intros c all p u s P I X. destruct (all || (c_ilevel (comps s c) =? 1)%Z) eqn:L.
  - eapply wp_conseq; [apply resume_post; auto | auto | cbv beta].
    + apply orb_true_iff in L. rewrite Z.eqb_eq in L. tauto.
    + intros e s' (_ & K & _). apply xltb_iff in K. apply (proj1 (xadd_nonneg _ s X)). exact K.
  - apply orb_false_iff in L. destruct L as (-> & L). unfold resume. apply wp_bind, wp_stat. rewrite I. cbn [steqb]. apply wp_bind, wp_setc, wp_bind, wp_get. rewrite comps_same. cbn [c_ilevel w_ilevel].
    apply wp_if; intros B; [apply wp_ret; auto|]. apply Z.eqb_neq in L. rewrite andb_true_r in B. apply negb_false_iff, Z.eqb_eq in B. lia.
Qed.
Lemma remaining_succeeds : forall c v p u s, PI s -> c_status (comps s c) <> Current -> c_status (comps s c) <> Standby -> c_status (comps s c) <> Data -> xle (Fin 0) v ->
  wp (set_remaining c v p u) (fun _ _ => True) (fun _ _ => False) s.
Proof.
  intros c v p u s P C S D X. assert (H : schedst (c_status (comps s c)) \/ c_status (comps s c) = Passive \/ c_status (comps s c) = Interrupted).
  { unfold schedst. destruct (c_status (comps s c)); auto 10; congruence. }
  destruct H as [H|H].
  - eapply wp_conseq; [apply remaining_post; auto | auto | cbv beta]. intros e s' (_ & K & _). apply xltb_iff in K. apply (proj2 (xadd_nonneg _ s X)). exact K.
  - unfold set_remaining. apply wp_bind, wp_stat. replace (steqb _ _ || _) with true by (destruct H as [H|H]; rewrite H; reflexivity). apply wp_setc. auto.
Qed.
Theorem C83_accepted : forall s o, reachable s -> wf s o -> sensible s o -> (forall e, ~ forbidden s o e) -> succeeds s o.
Proof.
  intros s o R W SE NF. pose proof (reach_t_PI _ (reach_p_t _ _ R)) as P. pose proof (proj2 W) as W2.
  assert (S2 : wp (exec 2 o) (fun _ _ => True) (fun _ _ => False) s -> succeeds s o) by apply succeeds_at.
  destruct o; cbn [sensible] in SE; try contradiction; cbn [wf] in W2; cbn [exec] in S2.
  - apply S2. assert (T : timely (at_time at_ delay s) cap s) by (destruct at_; apply (SE c _ cap); reflexivity).
    eapply wp_conseq; [apply create_post; auto; apply W2 | auto | cbv beta]. intros e s' (_ & L & C & _). eapply timely_iff; eauto.
  - apply S2. apply activate_succeeds; auto; [destruct at_; apply (SE c _ cap); reflexivity|]. destruct proc; [reflexivity|]. cbn [negb andb].
    destruct (steqb_spec (c_status (comps s c)) Data) as [D|D]; [|reflexivity]. destruct (c_hasproc (comps s c)) eqn:H; [reflexivity|]. destruct (NF AttrErr). constructor; auto.
  - apply S2. apply hold_succeeds; auto. intros D. apply (NF ValueErr). constructor; auto.
  - apply S2. apply passivate_succeeds; auto. intros D. apply (NF ValueErr). constructor; auto.
  - apply S2. apply interrupt_succeeds; auto. destruct (steqb_spec (c_status (comps s c)) Scheduled) as [D|D]; auto. destruct (steqb_spec (c_status (comps s c)) Interrupted) as [I|I]; auto.
    destruct (NF ValueErr). constructor; auto.
  - apply S2. apply resume_succeeds; auto. destruct (steqb_spec (c_status (comps s c)) Interrupted) as [I|I]; auto. destruct (NF ValueErr). constructor; auto.
  - apply C71_cancel_partial; auto.
  - apply S2. apply standby_succeeds; auto. intros D. apply (NF ValueErr). constructor; auto.
  - apply S2. apply remaining_succeeds; auto; intros D; apply (NF ValueErr); constructor; auto.
  - destruct SE as (U & ND & H). apply C71_release_partial; auto. intros r q I. destruct H as [H|H]; [|eapply H; eauto].
    destruct args as [|(r0, q0) [|? ?]]; [destruct I | | cbn in H; lia]. destruct I as [I|[]]. injection I as -> ->.
    destruct (in_dec Nat.eq_dec c (map fst (qs s (QClaim r)))) as [J|J]; [exact J|]. destruct (NF ValueErr). constructor. exact J.
  - apply C71_resource_release_partial; auto. destruct (r_anon (rsc s r)) eqn:A; auto. destruct q as [q|]; auto. destruct (NF ValueErr). constructor. auto.
  - apply C71_set_capacity_partial; auto.
  - apply S2. apply wait_succeeds; auto; apply SE.
  - apply S2. apply wait_for_succeeds; auto; apply SE.
  - apply (C71_states s st v None None R).
  - destruct (C71_states s st v after mx R) as (_ & H). exact H.
  - destruct SE as (-> & G & PU). assert (L : stores <> [] /\ NoDup stores).
    { split; [intros ->; apply (NF ValueErr); constructor; auto|]. destruct (ListDec.NoDup_dec Nat.eq_dec stores) as [N|N]; auto. destruct (NF ValueErr). constructor; auto. }
    apply S2. apply from_succeeds; auto; try apply L. intros D. apply (NF ValueErr). apply fb_from_data; auto.
  - destruct SE as (G & PU). assert (L : stores <> [] /\ NoDup stores).
    { split; [intros ->; apply (NF ValueErr); constructor; auto|]. destruct (ListDec.NoDup_dec Nat.eq_dec stores) as [N|N]; auto. destruct (NF ValueErr). constructor; auto. }
    apply S2. apply to_succeeds; auto; try apply L. intros D. apply (NF ValueErr). apply fb_to_data; auto.
  - apply S2. assert (N1 : ~ In i (items s k)) by (intros I; apply (NF ValueErr); constructor; auto).
    assert (N2 : pos_ok w (qs s (QStore k)) = true) by (destruct (pos_ok w (qs s (QStore k))) eqn:B; auto; destruct (NF ValueErr); apply fb_enter_where; auto).
    eapply wp_conseq; [apply (enter_alone 0 k i w s s); auto using PI_fine | auto | auto]. split; [auto|]. split; [auto|]. destruct (xltb _ _) eqn:L; auto. apply xltb_iff in L.
    destruct (NF QueueFull). apply fb_enter_full; auto. rewrite contents_len. destruct (kcap s k) as [q|]; cbn in *; [lra | contradiction].
  - apply S2. destruct (in_dec Nat.eq_dec i (items s k)) as [I|I]; [|destruct (NF ValueErr); constructor; auto]. unfold wp. rewrite leave_alone by auto. exact Logic.I.
  - apply S2, wp_setc. auto.
  - apply S2, wp_setc. auto.
  - apply S2, wp_put. auto.
  - apply C71_step_partial; auto.
  - apply C71_end_partial; auto.
  - apply S2. destruct SE as (t & TT & T). eapply wp_conseq; [apply run_post with (t := t); auto; apply W2 | auto | cbv beta]. intros e s' (_ & L & C & _). eapply timely_iff; eauto.
Qed.

(** ** all or nothing *)
Lemma xlt_or_not : forall a b, xlt a b \/ ~ xlt a b.
Proof. intros a b. destruct (xltb a b) eqn:E; [left; apply xltb_iff; auto | right; rewrite <- xltb_iff; congruence]. Qed.
Lemma stat_or_not : forall a b : status, a = b \/ a <> b.
Proof. intros. destruct (steqb_spec a b); auto. Qed.
Lemma list_or_not : forall ks : list nat, (ks = [] \/ ~ NoDup ks) \/ (ks <> [] /\ NoDup ks).
Proof. intros [|k t]; [auto|]. destruct (ListDec.NoDup_dec Nat.eq_dec (k :: t)); [right; split; [discriminate | auto] | auto]. Qed.
Lemma forbidden_or_not : forall s o, (exists e, forbidden s o e) \/ (forall e, ~ forbidden s o e).
Proof.
  intros s o. destruct o; try (right; intros e0 F; inversion F; fail).
  - destruct (stat_or_not (c_status (comps s c)) Data) as [A|A].
    + destruct (c_hasproc (comps s c)) eqn:B; [right; intros e F; inversion F; congruence|].
      destruct proc; [right; intros e F; inversion F | left; eexists; constructor; auto].
    + right. intros e F. inversion F. contradiction.
  - destruct (stat_or_not (c_status (comps s c)) Data); [left; eexists; constructor; auto | right; intros e F; inversion F; contradiction].
  - destruct (stat_or_not (c_status (comps s c)) Data); [left; eexists; constructor; auto | right; intros e F; inversion F; contradiction].
  - destruct (stat_or_not (c_status (comps s c)) Scheduled); [right; intros e F; inversion F; contradiction|].
    destruct (stat_or_not (c_status (comps s c)) Interrupted); [right; intros e F; inversion F; contradiction | left; eexists; constructor; auto].
  - destruct (stat_or_not (c_status (comps s c)) Interrupted); [right; intros e F; inversion F; contradiction | left; eexists; constructor; auto].
  - destruct (stat_or_not (c_status (comps s c)) Data); [left; eexists; constructor; auto | right; intros e F; inversion F; contradiction].
  - destruct (stat_or_not (c_status (comps s c)) Current); [left; eexists; constructor; auto|].
    destruct (stat_or_not (c_status (comps s c)) Standby); [left; eexists; constructor; auto | right; intros e F; inversion F; tauto].
  - destruct args as [|(r, q) l]; [right; intros e F; inversion F|].
    destruct (in_dec Nat.eq_dec c (map fst (qs s (QClaim r)))) as [I|I]; [right; intros e F; inversion F; contradiction | left; eexists; constructor; auto].
  - destruct q as [q|]; [|right; intros e F; inversion F]. destruct (r_anon (rsc s r)) eqn:A; [right; intros e F; inversion F; congruence | left; eexists; constructor; auto].
  - destruct (list_or_not stores) as [L|(L1 & L2)]; [left; eexists; apply fb_from_list; auto|].
    destruct (stat_or_not (c_status (comps s c)) Data); [left; eexists; apply fb_from_data; auto | right; intros e F; inversion F; tauto].
  - destruct (list_or_not stores) as [L|(L1 & L2)]; [left; eexists; apply fb_to_list; auto|].
    destruct (stat_or_not (c_status (comps s c)) Data); [left; eexists; apply fb_to_data; auto | right; intros e F; inversion F; tauto].
  - destruct (in_dec Nat.eq_dec i (items s k)) as [I|I]; [left; eexists; apply fb_enter_twice; auto|].
    destruct (pos_ok w (qs s (QStore k))) eqn:P; [|left; eexists; apply fb_enter_where; auto].
    destruct (xlt_or_not (kcap s k) (Fin (contents s k + 1))); [left; eexists; apply fb_enter_full; auto|].
    right. intros e F. inversion F; congruence || contradiction.
  - destruct (in_dec Nat.eq_dec i (items s k)) as [I|I]; [right; intros e F; inversion F; contradiction | left; eexists; constructor; auto].
Qed.
Theorem C83_all_or_nothing : forall s o, reachable s -> wf s o -> sensible s o -> succeeds s o \/ exists e, forbidden s o e /\ refused s o e.
Proof.
  intros s o R W S. destruct (forbidden_or_not s o) as [(e & F)|F].
  - right. exists e. split; auto. apply C83_refused; auto.
  - left. apply C83_accepted; auto.
Qed.

(** ** cases *)
(** 1 runs, 2 is scheduled, 3 is a data component (its process has ended) *)
Definition trio : list op := [mk 3; mk 1; mk 2; go; OStep; OEnd; OStep].
Example C83_case : let s := aftr trio in reachable s /\ c_status (comps s 3) = Data /\ c_status (comps s 1) = Current /\ c_status (comps s 2) = Scheduled /\
  forbidden s (OHold 3 (SDur (Fin 1)) (Fin 0) false 0 None) ValueErr /\ forbidden s (OInterrupt 1) ValueErr /\ forbidden s (ORelease 1 [(0%nat, None)]) ValueErr /\
  forbidden s (from 2 [0%nat; 0%nat] never) ValueErr /\ forbidden s (OLeaveStore 7 0) ValueErr.
Proof.
  intros s. split; [reached_p|]. assert (D : c_status (comps s 3) = Data) by (vm_compute; reflexivity). assert (C : c_status (comps s 1) = Current) by (vm_compute; reflexivity).
  assert (Q0 : qs s (QClaim 0) = []) by (vm_compute; reflexivity). assert (I0 : items s 0 = []) by (vm_compute; reflexivity).
  split; [exact D|]. split; [exact C|]. split; [vm_compute; reflexivity|].
  split; [constructor; exact D|]. split; [constructor; rewrite C; discriminate|].
  split; [constructor; unfold has_claim; rewrite Q0; intros []|]. split; [apply fb_from_list; right; intros N; inversion N as [|? ? N1]; apply N1; left; reflexivity|].
  constructor. rewrite I0. intros [].
Qed.
Lemma not_past : forall t s, xltb t (Fin (now s)) = false -> forall cap, timely t cap s.
Proof. intros t s L cap P. unfold past in P. apply xltb_iff in P. congruence. Qed.
(** the current component holds, the scheduled one is interrupted, and is made to wait for a state *)
Example C83_case2 : let s := aftr trio in let o := OHold 1 (SDur (Fin 1)) (Fin 0) false 0 None in
  reachable s /\ wf s o /\ sensible s o /\ (forall e, ~ forbidden s o e) /\ wf s (OInterrupt 2) /\ sensible s (OInterrupt 2) /\ (forall e, ~ forbidden s (OInterrupt 2) e).
Proof.
  intros s o. split; [reached_p|]. split; [apply wfb_wf; vm_compute; reflexivity|].
  assert (C : c_status (comps s 1) = Current) by (vm_compute; reflexivity). assert (D : c_status (comps s 2) = Scheduled) by (vm_compute; reflexivity).
  assert (E : hold_time (SDur (Fin 1)) s = Some (xaddq (Fin 1) (now s))) by reflexivity.
  assert (L : xltb (xaddq (Fin 1) (now s)) (Fin (now s)) = false) by (vm_compute; reflexivity).
  split; [eexists; split; [exact E | apply not_past; exact L]|].
  split; [intros e F; inversion F; congruence|]. split; [apply wfb_wf; vm_compute; reflexivity|]. split; [exact Logic.I|].
  intros e F; inversion F; congruence.
Qed.

(** ** calls that are neither done nor refused *)
Ltac errs e := match goal with |- exec ?n ?o ?s = (_, Er _) => assert (K : snd (exec n o s) = Er e) by (vm_compute; reflexivity); rewrite <- K; apply surjective_pairing end.
(** wait() without states: the component is still scheduled, but without an event: it will never continue *)
Definition wait_for_nothing (c : nat) : op := OWait c [] false SNone (Fin 0) false None.
Definition no_event (s : env) (c : nat) : Prop := forall e, In e (evl s) -> e_c e <> c.
Definition no_eventb (s : env) (c : nat) : bool := forallb (fun e => negb (Nat.eqb (e_c e) c)) (evl s).
Lemma no_event_iff : forall s c, no_eventb s c = true <-> no_event s c.
Proof. intros. unfold no_eventb, no_event. rewrite forallb_forall. split; intros H e I; specialize (H e I); [apply negb_true_iff, Nat.eqb_neq in H | apply negb_true_iff, Nat.eqb_neq]; auto. Qed.
Lemma has_event : forall s c, no_eventb s c = false -> ~ no_event s c.
Proof. intros s c H N. apply no_event_iff in N. congruence. Qed.
Theorem C83_wait_refuted : exists s c s', reachable s /\ wf s (wait_for_nothing c) /\ exec 19 (wait_for_nothing c) s = (s', Er TypeErr) /\
  c_status (comps s c) = Scheduled /\ ~ no_event s c /\ no_event s' c /\ c_status (comps s' c) = Scheduled.
Proof.
  exists (aftr trio), 2%nat, (fst (exec 19 (wait_for_nothing 2) (aftr trio))). split; [reached_p|]. split; [apply wfb_wf; vm_compute; reflexivity|].
  split; [errs TypeErr|]. split; [vm_compute; reflexivity|]. split; [apply has_event; vm_compute; reflexivity|]. split; [apply no_event_iff; vm_compute; reflexivity|]. vm_compute; reflexivity.
Qed.
(** a request with a negative quantity: the first resource has the component in its line of requesters already, though it is still current *)
Definition ask2 (c : nat) : op := req c [(0%nat, 1, Fin 0); (3%nat, -1, Fin 0)].
Theorem C83_request_refuted : exists s c s', reachable s /\ wf s (ask2 c) /\ exec 19 (ask2 c) s = (s', Er ValueErr) /\
  map fst (qs s (QReq 0)) = [] /\ map fst (qs s' (QReq 0)) = [c] /\ c_status (comps s' c) = Current /\ c_requests (comps s' c) = [(0%nat, 1)].
Proof.
  exists (aftr trio), 1%nat, (fst (exec 19 (ask2 1) (aftr trio))). split; [reached_p|]. split; [apply wfb_wf; vm_compute; reflexivity|].
  split; [errs ValueErr|]. do 3 (split; [vm_compute; reflexivity|]). vm_compute; reflexivity.
Qed.
(** wait_for with the same state twice: the component is left among its waiters *)
Definition wait_twice (c : nat) : op := OWaitFor c (fun _ => false) [0%nat; 0%nat] SNone (Fin 0) false None.
Theorem C83_wait_for_refuted : exists s c s', reachable s /\ wf s (wait_twice c) /\ exec 19 (wait_twice c) s = (s', Er ValueErr) /\
  map fst (qs s (QWait 0)) = [] /\ map fst (qs s' (QWait 0)) = [c] /\ c_status (comps s' c) = Current.
Proof.
  exists (aftr trio), 1%nat, (fst (exec 19 (wait_twice 1) (aftr trio))). split; [reached_p|]. split; [apply wfb_wf; vm_compute; reflexivity|].
  split; [errs ValueErr|]. do 2 (split; [vm_compute; reflexivity|]). vm_compute; reflexivity.
Qed.
(** release of two resources, the second of which is not claimed: the first is released *)
Definition has2 : list op := trio ++ [req 1 [(0%nat, 2, Fin 0)]; OStep].
Definition rel2 (c : nat) : op := ORelease c [(0%nat, None); (3%nat, None)].
Theorem C83_release_refuted : exists s c s', reachable s /\ wf s (rel2 c) /\ exec 19 (rel2 c) s = (s', Er ValueErr) /\
  has_claim s c 0 /\ ~ has_claim s' c 0.
Proof.
  exists (aftr has2), 1%nat, (fst (exec 19 (rel2 1) (aftr has2))). split; [reached_p|]. split; [apply wfb_wf; vm_compute; reflexivity|].
  split; [errs ValueErr|]. unfold has_claim.
  assert (A : map fst (qs (aftr has2) (QClaim 0)) = [1%nat]) by (vm_compute; reflexivity).
  assert (B : map fst (qs (fst (exec 19 (rel2 1) (aftr has2))) (QClaim 0)) = []) by (vm_compute; reflexivity).
  rewrite A, B. split; [left; reflexivity | intros []].
Qed.
(** the remaining duration of an interrupted component is set to a negative number; resume then raises, and the component is scheduled without an event *)
Definition halted : list op := trio ++ [OInterrupt 2; ORemaining 2 (Fin (-1)) (Fin 0) false].
Definition again (c : nat) : op := OResume c false (Fin 0) false.
Theorem C83_resume_refuted : exists s c s', reachable s /\ wf s (again c) /\ exec 19 (again c) s = (s', Er ValueErr) /\
  c_status (comps s c) = Interrupted /\ c_status (comps s' c) = Scheduled /\ no_event s' c.
Proof.
  exists (aftr halted), 2%nat, (fst (exec 19 (again 2) (aftr halted))). split; [reached_p|]. split; [apply wfb_wf; vm_compute; reflexivity|].
  split; [errs ValueErr|]. do 2 (split; [vm_compute; reflexivity|]). apply no_event_iff; vm_compute; reflexivity.
Qed.
(** store 0 (room for two items) contains 11 and 12, and 3 waits to put 12 in it: 11 leaves, and the call raises because 12 is there already *)
Definition full : list op := [mk 1; mk 2; mk 3; go; OStep; to 1 [0%nat] 11; OStep; to 2 [0%nat] 12; OStep; to 3 [0%nat] 12].
Theorem C83_leave_refuted : exists s s', reachable s /\ wf s (OLeaveStore 11 0) /\ exec 19 (OLeaveStore 11 0) s = (s', Er ValueErr) /\
  items s 0 = [11; 12]%nat /\ items s' 0 = [12]%nat.
Proof.
  exists (stp any envk full), (fst (exec 19 (OLeaveStore 11 0) (stp any envk full))). split; [apply stp_reach; [auto | apply rs0_fresh | vm_compute; reflexivity]|].
  split; [apply wfb_wf; vm_compute; reflexivity|].
  split; [errs ValueErr|]. split; vm_compute; reflexivity.
Qed.
Print Assumptions C83_refused.
Print Assumptions C83_accepted.
Print Assumptions C83_all_or_nothing.
