(** Postconditions of the scheduling calls: what the component called looks like afterwards. *)
From Coq Require Import QArith Lqa List Bool Arith ZArith Lia.
From Verif Require Import Base Kernel Wp KernelE KernelL KernelX KernelT KernelU KernelR KernelQ KernelS KernelI.
Import ListNotations.
Open Scope Q_scope.

(** the time for which an event is made: the target, or now if that is in the past *)
Definition eff (t : xq) (s : env) : xq := if xltb t (Fin (now s)) then Fin (now s) else t.
Definition newev (c : nat) (t p : xq) (u : bool) (s : env) : list ev :=
  match t with
  | Fin q => [mkEv q p (if u then - (seq s + 1) else seq s + 1)%Z c]
  | PInf => []
  end.
Lemma w_reschedule : forall c t p u cap s,
  wp (reschedule c t p u cap)
    (fun _ s' => (xltb t (Fin (now s)) = true -> capped cap s = true) /\ evl s' = evl s ++ newev c (eff t s) p u s /\
       c_sched (comps s' c) = eff t s /\ c_status (comps s' c) = c_status (comps s c) /\ c_rem (comps s' c) = c_rem (comps s c) /\
       c_ilevel (comps s' c) = c_ilevel (comps s c) /\ now s' = now s /\ stby s' = stby s /\ pend s' = pend s /\ qs s' = qs s)
    (fun e s' => s' = s /\ e = ValueErr /\ xltb t (Fin (now s)) = true /\ capped cap s = false) s.
Proof.
  intros c t p u cap s. unfold reschedule. apply wp_bind, wp_get, wp_bind.
  assert (P : forall s1 t', now s1 = now s -> evl s1 = evl s -> seq s1 = seq s -> comps s1 = comps s -> stby s1 = stby s -> pend s1 = pend s -> qs s1 = qs s ->
    wp (setc c (w_sched t') ;;; push c t' p u) (fun _ s' => evl s' = evl s ++ newev c t' p u s /\
       c_sched (comps s' c) = t' /\ c_status (comps s' c) = c_status (comps s c) /\ c_rem (comps s' c) = c_rem (comps s c) /\
       c_ilevel (comps s' c) = c_ilevel (comps s c) /\ now s' = now s /\ stby s' = stby s /\ pend s' = pend s /\ qs s' = qs s) (fun _ _ => False) s1).
  { intros s1 t' E1 E2 E3 E4 E5 E6 E7. apply wp_bind, wp_setc. unfold push, newev. destruct t' as [q|].
    - apply wp_bind, wp_put, wp_bind, wp_get, wp_bind, wp_setc, wp_put. unfold m_comp; cbn; unfold upd; rewrite ?Nat.eqb_refl; cbn.
      rewrite E2, E3, E4. repeat split; auto.
    - apply wp_ret. unfold m_comp; cbn; unfold upd; rewrite ?Nat.eqb_refl; cbn. rewrite E2, E4, app_nil_r. repeat split; auto. }
  unfold eff. destruct (xltb t (Fin (now s))) eqn:L.
  - apply wp_bind, wp_get. apply wp_if; intros C.
    + apply wp_get. eapply wp_conseq; [apply P; auto | |]; cbv beta; [tauto | intros ? ? []].
    + apply wp_raise. auto.
  - apply wp_ret. eapply wp_conseq; [apply P; auto | |]; cbv beta; [|intros ? ? []]. split; [congruence | auto].
Qed.

(** ** not registered with anything *)
Definition free (c : nat) (s : env) : Prop := noreq c s /\ unrc c s.
Definition Rfr (c : nat) (s s' : env) : Prop := free c s -> free c s'.
Lemma Rfr_po : forall c, preorder (Rfr c). Proof. constructor; unfold Rfr; auto. Qed.
Lemma Rfr_comp : forall c x f s, (forall y, c_requests (f y) = c_requests y /\ c_waits (f y) = c_waits y /\ c_from (f y) = c_from y /\ c_to (f y) = c_to y) ->
  Rfr c s (m_comp x f s).
Proof.
  intros c x f s H (A & B). unfold free, noreq, unrc, unr in *. rewrite comps_m_comp. destruct (Nat.eqb_spec c x) as [->|]; auto.
  destruct (H (comps s x)) as (-> & -> & -> & ->). auto.
Qed.
Lemma Rfr_same : forall c s s', comps s' = comps s -> Rfr c s s'.
Proof. unfold Rfr, free, noreq, unrc. intros c s s' ->. auto. Qed.
Ltac ffr c := let P := constr:(Rfr_po c) in fgo P; try (solve [apply Rfr_same; reflexivity | apply Rfr_comp; intros; repeat split; reflexivity]).
Lemma fr_remove : forall c x, frames (Rfr c) (remove x). Proof. intros. unfold remove. ffr c. Qed.
Lemma fr_reschedule : forall c x t p u cap, frames (Rfr c) (reschedule x t p u cap). Proof. intros. unfold reschedule, push. ffr c. Qed.
#[export] Hint Resolve fr_remove fr_reschedule : ffr.
Lemma free_idle : forall s c, EL s -> RI s -> idle (c_status (comps s c)) -> free c s.
Proof. intros s c L R I. split; [apply (L c); auto | apply RI_unr; auto]. Qed.
Lemma w_check_fail_free : forall c s, wp (check_fail c) (fun _ s' => free c s') (fun _ _ => True) s.
Proof.
  intros c s. eapply wp_conseq; [apply wp_and; [apply (w_check_fail_noreq c s (fun _ _ => True)); auto | apply (w_check_fail_unr c s (fun _ _ => True)); auto] | |];
    cbv beta; auto.
Qed.
Lemma wp_true : forall A (m : M A) s, wp m (fun _ _ => True) (fun _ _ => True) s.
Proof. intros. unfold wp. destruct (m s) as [? [|]]; auto. Qed.
Lemma wp_skip : forall A B (m : M A) (k : A -> M B) (Q : B -> env -> Prop) s,
  (forall a s', wp (k a) Q (fun _ _ => True) s') -> wp (bind m k) Q (fun _ _ => True) s.
Proof. intros A B m k Q s H. apply wp_bind. eapply wp_conseq; [apply wp_true | |]; cbv beta; auto. Qed.
Lemma wp_fr : forall c A B (m : M A) (k : A -> M B) (Q : B -> env -> Prop) s, frames (Rfr c) m -> free c s ->
  (forall a s', free c s' -> wp (k a) Q (fun _ _ => True) s') -> wp (bind m k) Q (fun _ _ => True) s.
Proof.
  intros c A B m k Q s F H K. apply wp_bind. eapply wp_conseq; [apply (frames_wp _ _ _ s F) | |]; cbv beta; auto.
Qed.
Lemma wp_fr1 : forall c A (m : M A) s, frames (Rfr c) m -> free c s -> wp m (fun _ s' => free c s') (fun _ _ => True) s.
Proof. intros c A m s F H. eapply wp_conseq; [apply (frames_wp _ _ _ s F) | |]; cbv beta; auto. Qed.
Lemma hold_free : forall c sp p u i cap s, EL s -> RI s -> wp (hold c sp p u i cap) (fun _ s' => free c s') (fun _ _ => True) s.
Proof.
  intros c sp p u i cap s L R. unfold hold. apply wp_bind, wp_stat, wp_bind.
  apply (wp_conseq _ _ (fun _ s1 => free c s1) _ (fun _ _ => True) _); [| |auto].
  - apply wp_when; intros C; [apply wp_skip; intros _ s1; apply wp_skip; intros _ s2; apply w_check_fail_free|].
    apply free_idle; auto. apply andb_false_iff in C. destruct C as [C|C]; apply negb_false_iff, steqb_iff in C; rewrite C; auto with idle.
  - intros _ s1 F. apply wp_fr1; auto. ffr c; auto with ffr.
Qed.
Lemma passivate_free : forall c s, EL s -> RI s -> wp (passivate c) (fun _ s' => free c s') (fun _ _ => True) s.
Proof.
  intros c s L R. unfold passivate. apply wp_bind, wp_stat, wp_bind.
  apply (wp_conseq _ _ (fun _ s1 => free c s1) _ (fun _ _ => True) _); [| |auto].
  - apply wp_if; intros C.
    + apply steqb_iff in C. apply wp_fr1; [ffr c|]. apply free_idle; auto. rewrite C. auto with idle.
    + apply wp_skip; intros _ s1. apply wp_skip; intros _ s2. apply wp_bind. eapply wp_conseq; [apply w_check_fail_free | cbv beta | auto].
      intros _ s3 F. apply wp_fr1; auto. ffr c.
  - intros _ s1 F. apply wp_fr1; auto. ffr c.
Qed.
Lemma wp_conj : forall A (m : M A) (Q1 Q2 : A -> env -> Prop) X1 X2 s, wp m Q1 X1 s -> wp m Q2 X2 s -> wp m (fun a s' => Q1 a s' /\ Q2 a s') (fun _ _ => True) s.
Proof. unfold wp. intros. destruct (m s) as [s' [|]]; auto. Qed.

(** ** what stays the same *)
Definition same0 (c : nat) (s s' : env) : Prop :=
  now s' = now s /\ off s' = off s /\ defcap s' = defcap s /\
  c_sched (comps s' c) = c_sched (comps s c) /\ c_rem (comps s' c) = c_rem (comps s c) /\ c_ilevel (comps s' c) = c_ilevel (comps s c) /\
  c_istat (comps s' c) = c_istat (comps s c) /\ c_status (comps s' c) = c_status (comps s c).
Lemma same0_po : forall c, preorder (same0 c).
Proof. constructor; unfold same0; intuition congruence. Qed.
Lemma same0_comp : forall c x f s,
  (forall y, c_sched (f y) = c_sched y /\ c_rem (f y) = c_rem y /\ c_ilevel (f y) = c_ilevel y /\ c_istat (f y) = c_istat y /\ c_status (f y) = c_status y) ->
  same0 c s (m_comp x f s).
Proof.
  intros c x f s H. unfold same0. rewrite comps_m_comp. destruct (Nat.eqb_spec c x) as [->|]; [|repeat split; auto].
  destruct (H (comps s x)) as (-> & -> & -> & -> & ->). repeat split; auto.
Qed.
Lemma same0_same : forall c s s', comps s' = comps s -> now s' = now s -> off s' = off s -> defcap s' = defcap s -> same0 c s s'.
Proof. intros c s s' A B C D. unfold same0. rewrite A. repeat split; auto. Qed.
Ltac fz c := let P := constr:(same0_po c) in fgo P; try (solve [apply same0_same; reflexivity | apply same0_comp; intros; repeat split; reflexivity]).
Lemma z_remove : forall c x, frames (same0 c) (remove x). Proof. intros. unfold remove. fz c. Qed.
Lemma z_check_fail : forall c x, frames (same0 c) (check_fail x).
Proof. intros. unfold check_fail, leave_req, q_leave. fz c. Qed.
Lemma z_check_notdata : forall c x, frames (same0 c) (check_notdata x). Proof. intros. unfold check_notdata. fz c. Qed.
#[export] Hint Resolve z_remove z_check_fail z_check_notdata : ffr.

Lemma evs_off : forall c s, EI s -> Off c s -> evs c s = [].
Proof.
  intros c s H O. pose proof (EI_off_not _ _ H O) as N. unfold evs. induction (evl s) as [|e l IH]; auto. cbn in *.
  destruct (Nat.eqb_spec (e_c e) c); tauto.
Qed.
Lemma evs_sched : forall c s e, EI s -> In e (evl s) -> e_c e = c -> evs c s = [e].
Proof.
  intros c s e H I E. pose proof (ei_nd _ H) as N. unfold evs. revert I N. induction (evl s) as [|a l IH]; cbn; [tauto|]. intros I N.
  inversion N as [|? ? N1 N2]; subst. destruct I as [->|I].
  - rewrite Nat.eqb_refl. f_equal. clear - N1. induction l as [|b l IH]; auto. cbn in *. destruct (Nat.eqb_spec (e_c b) (e_c e)); tauto.
  - destruct (Nat.eqb_spec (e_c a) (e_c e)) as [E|]; auto. exfalso. apply N1. rewrite E. apply in_map; auto.
Qed.
Definition others (c : nat) (s : env) : list ev := filter (fun e => negb (Nat.eqb (e_c e) c)) (evl s).
Lemma others_all : forall c s, evs c s = [] -> others c s = evl s.
Proof.
  intros c s. unfold evs, others. induction (evl s) as [|e l IH]; auto. cbn. destruct (Nat.eqb (e_c e) c); cbn; [discriminate | intros; f_equal; auto].
Qed.
Lemma others_none : forall c s s', evl s' = others c s -> evs c s' = [].
Proof. intros c s s' E. unfold evs. rewrite E. unfold others. induction (evl s) as [|e l IH]; auto. cbn. destruct (Nat.eqb (e_c e) c) eqn:K; cbn; [|rewrite K]; auto. Qed.
Lemma w_remove_others : forall c s, EI s -> wp (remove c) (fun _ s' => evl s' = others c s) (fun _ _ => True) s.
Proof.
  intros c s H. unfold remove. apply wp_bind, wp_get. apply wp_if; intros B.
  - apply wp_bind, wp_get. destruct (ev_del c (evl s)) as [l'|] eqn:D; [|apply wp_raise; auto].
    apply wp_bind, wp_put, wp_setc. cbn [evl m_comp s_comps s_evl]. apply ev_del_some in D. destruct D as (l1 & e & l2 & E & <- & ->).
    pose proof (ei_nd _ H) as N. unfold others. rewrite E in N |- *. rewrite map_app in N. cbn in N. apply NoDup_remove_2 in N.
    rewrite filter_app. cbn. rewrite Nat.eqb_refl. cbn. rewrite <- filter_app.
    rewrite <- map_app in N. symmetry. clear - N. induction (l1 ++ l2) as [|a l IH]; auto. cbn in *.
    destruct (Nat.eqb_spec (e_c a) (e_c e)); [tauto|]. cbn. f_equal. auto.
  - assert (E : evl s = others c s) by (symmetry; apply others_all, evs_off; auto).
    apply wp_bind, wp_stat. apply wp_when; intros _; [apply wp_bind, wp_put, wp_put; exact E | exact E].
Qed.
(** c has left the event list and every queue; nothing else about it has changed *)
Definition ready (c : nat) (s s' : env) : Prop := same0 c s s' /\ free c s' /\ evl s' = others c s /\ (0 <= seq s')%Z.
Lemma ready_idle : forall c s, KI s -> RI s -> idle (c_status (comps s c)) -> ready c s s.
Proof.
  intros c s K R I. split; [apply same0_po|]. split; [apply free_idle; [apply K | auto | auto]|]. split; [|apply K].
  symmetry. apply others_all, evs_off; [apply K|]. apply EI_stat_off; [apply K|]. intros [|[|]]; rewrite H in I; revert I; auto with idle.
Qed.
Lemma wp_conjX : forall A (m : M A) (Q1 Q2 : A -> env -> Prop) (X1 X2 X : exn -> env -> Prop) s, wp m Q1 X1 s -> wp m Q2 X2 s ->
  (forall e s', X1 e s' -> X2 e s' -> X e s') -> wp m (fun a s' => Q1 a s' /\ Q2 a s') X s.
Proof. unfold wp. intros. destruct (m s) as [s' [|]]; auto. Qed.
Lemma ready_prep : forall c s, EI s -> GI none s ->
  wp (remove c ;;; check_fail c) (fun _ s' => ready c s s') (fun _ _ => False) s.
Proof.
  intros c s H G. apply wp_bind.
  eapply wp_conseq with (X := fun _ _ => False); [eapply wp_conjX; [apply (frames_wp _ _ _ s (z_remove c c)) | eapply wp_conjX with (X := fun _ _ => False);
     [apply (frames_wp _ _ _ s (gq_remove none c)) | eapply wp_conjX with (X := fun _ _ => False); [apply w_remove with (Q := fun _ s' => EI s' /\ Off c s') (X := fun _ _ => False); auto | apply w_remove_others; auto | auto] | auto] | auto] | |]; cbv beta; auto.
  intros _ s1 (Z1 & G1 & (E1 & O1) & V1).
  eapply wp_conseq with (X := fun _ _ => False);
    [eapply wp_conjX with (X := fun _ _ => False); [apply w_check_fail_free | eapply wp_conjX with (X := fun _ _ => False); [apply (frames_wp _ _ _ s1 (z_check_fail c c)) |
       eapply wp_conjX with (X := fun _ _ => False); [apply (frames_wp _ _ _ s1 (e_check_fail c)) | apply (w_check_fail_G none c s1 (fun _ _ => False)); auto with gq | auto] | auto] | auto] | |]; cbv beta; auto.
  intros _ s2 (F2 & Z2 & E2 & _). split; [eapply same0_po; eauto|]. split; [auto|]. split.
  - rewrite <- V1. apply E2.
  - apply (EI_Eeq _ _ E1 E2).
Qed.
Lemma wp_right : forall A (m : M A) s (Q : A -> env -> Prop) X, wp m Q X s -> wp m Q (fun _ _ => True) s.
Proof. intros. eapply wp_conseq; eauto. Qed.

(** c is to become current at t, with that priority; the other events are as they were *)
Definition booked (c : nat) (t p : xq) (u : bool) (s s' : env) : Prop :=
  c_sched (comps s' c) = t /\
  match t with
  | Fin q => exists n, (0 < n)%Z /\ evl s' = others c s ++ [mkEv q p (if u then - n else n)%Z c]
  | PInf => evl s' = others c s
  end.
Lemma booked_evs : forall c q p u s s', booked c (Fin q) p u s s' -> exists n, (0 < n)%Z /\ evs c s' = [mkEv q p (if u then - n else n)%Z c].
Proof.
  intros c q p u s s' (_ & n & Z & E). exists n. split; auto. pose proof (others_none c s (s_evl (others c s) s') eq_refl) as N.
  unfold evs in *. cbn in N. rewrite E, filter_app, N. cbn. rewrite Nat.eqb_refl. auto.
Qed.
Lemma w_book : forall c t p u cap s s0, (0 <= seq s)%Z -> evl s = others c s0 ->
  wp (reschedule c t p u cap) (fun _ s' => (xltb t (Fin (now s)) = true -> capped cap s = true) /\ booked c (eff t s) p u s0 s' /\ now s' = now s /\
       c_status (comps s' c) = c_status (comps s c) /\ stby s' = stby s /\ pend s' = pend s /\ qs s' = qs s)
    (fun e s' => s' = s /\ e = ValueErr /\ xltb t (Fin (now s)) = true /\ capped cap s = false) s.
Proof.
  intros c t p u cap s s0 Z N. eapply wp_conseq; [apply w_reschedule | |]; cbv beta; auto.
  intros _ s' (A & B & C & D & E & F & G & H). split; [auto|]. split; [|auto]. split; [auto|].
  rewrite N in B. destruct (eff t s) as [q|]; cbn in B; [|rewrite app_nil_r in B; auto]. exists (seq s + 1)%Z. split; [lia | exact B].
Qed.
Lemma incl_others : forall c s, incl (others c s) (evl s). Proof. intros c s x. unfold others. rewrite filter_In. tauto. Qed.

(** The outcome of a call that schedules c at t: either c gets that event, or the call is rejected and no event is made. *)
Definition schedules (c : nat) (t p : xq) (u : bool) (cap : option bool) (s : env) (m : M unit) : Prop :=
  wp m (fun _ s' => (xltb t (Fin (now s)) = true -> capped cap s = true) /\ booked c (eff t s) p u s s' /\ now s' = now s)
       (fun e s' => incl (evl s') (evl s) /\ (xltb t (Fin (now s)) = true /\ capped cap s = false /\ e = ValueErr \/ 
                       e = ValueErr /\ c_status (comps s c) = Data \/ e = AttrErr /\ c_status (comps s c) = Data /\ c_hasproc (comps s c) = false)) s.
Definition hold_time (sp : spec) (s : env) : option xq :=
  match sp with SNone => Some (Fin (now s)) | SDur d => Some (xadd (Fin (now s)) d) | STill t => Some (xaddq t (off s)) | SBoth => None end.
Definition at_time (a : option xq) (d : xq) (s : env) : xq :=
  match a with None => xadd (Fin (now s)) d | Some a => xadd (xaddq a (off s)) d end.
Definition run_time (sp : spec) (s : env) : option xq :=
  match sp with SNone => Some PInf | SDur d => Some (xadd (Fin (now s)) d) | STill t => Some (xaddq t (off s)) | SBoth => None end.

Lemma w_tail : forall c t p u cap s s1, same0 c s s1 -> evl s1 = others c s -> (0 <= seq s1)%Z ->
  wp (setc c (w_status Scheduled) ;;; reschedule c t p u cap)
     (fun _ s' => (xltb t (Fin (now s)) = true -> capped cap s = true) /\ booked c (eff t s) p u s s' /\ now s' = now s /\ c_status (comps s' c) = Scheduled)
     (fun e s' => incl (evl s') (evl s) /\ xltb t (Fin (now s)) = true /\ capped cap s = false /\ e = ValueErr) s1.
Proof.
  intros c t p u cap s s1 (N & O & D & _) E Z. apply wp_bind, wp_setc.
  set (s2 := m_comp c (w_status Scheduled) s1).
  assert (N2 : now s2 = now s) by exact N. assert (C2 : capped cap s2 = capped cap s) by (destruct cap; auto).
  assert (F2 : eff t s2 = eff t s) by (unfold eff; rewrite N2; auto).
  assert (S2 : c_status (comps s2 c) = Scheduled) by (unfold s2; rewrite comps_same; auto).
  eapply wp_conseq; [apply (w_book c t p u cap s2 s) | |]; cbv beta; auto.
  - intros _ s' (A & B & G & H & _). rewrite N2, C2 in A. rewrite F2 in B. rewrite S2 in H. split; [auto|]. split; [auto|]. split; [congruence | auto].
  - intros e s' (-> & -> & A & B). rewrite N2, C2 in *. split; [|auto]. unfold s2. cbn. rewrite E. apply incl_others.
Qed.
Lemma eff_eff : forall t s, eff (eff t s) s = eff t s.
Proof.
  intros t s. unfold eff. destruct (xltb t (Fin (now s))) eqn:L; [|rewrite L; auto].
  destruct (xltb (Fin (now s)) (Fin (now s))); auto.
Qed.
Lemma eff_notpast : forall t s, xltb (eff t s) (Fin (now s)) = false.
Proof.
  intros t s. unfold eff. destruct (xltb t (Fin (now s))) eqn:L; auto. cbn. unfold Qltb. apply negb_false_iff, Qle_bool_iff. lra.
Qed.
Lemma hold_post : forall c sp p u cap s t, PI s -> hold_time sp s = Some t ->
  wp (hold c sp p u 0 cap)
    (fun _ s' => (xltb t (Fin (now s)) = true -> capped cap s = true) /\ booked c (eff t s) p u s s' /\ now s' = now s /\ c_status (comps s' c) = Scheduled)
    (fun e s' => incl (evl s') (evl s) /\ (xltb t (Fin (now s)) = true /\ capped cap s = false /\ e = ValueErr \/ e = ValueErr /\ c_status (comps s c) = Data)) s.
Proof.
  intros c sp p u cap s t [Q S] T. unfold hold. apply wp_bind, wp_stat, wp_bind.
  apply (wp_conseq _ _ (fun _ s1 => ready c s s1) _ (fun e s1 => s1 = s /\ e = ValueErr /\ c_status (comps s c) = Data) _).
  - apply wp_when; intros C.
    + apply wp_bind. unfold check_notdata. apply wp_bind, wp_stat, wp_when; intros D.
      * apply wp_raise. apply steqb_iff in D. auto.
      * eapply wp_conseq; [apply ready_prep; apply Q | auto | intros ? ? []].
    + apply ready_idle; [apply Q | apply Q|]. apply andb_false_iff in C. destruct C as [C|C]; apply negb_false_iff, steqb_iff in C; rewrite C; auto with idle.
  - intros _ s1 ((N & O & D & F) & _ & E & Z).
    assert (R : same0 c s s1) by (split; auto).
    assert (E1 : forall t', t' = t -> wp (past <- get (fun s => xltb t' (Fin (now s))) ;;
        t'' <- (if past then b <- get (capped cap) ;; (if b then get (fun s => Fin (now s)) else raise ValueErr) else ret t') ;;
        (if negb (0 =? 0)%Z then n <- get now ;; setc c (w_rem (xsubq t'' n)) ;;; setc c (w_istat Scheduled) ;;; setc c (w_ilevel 0) ;;; setc c (w_status Interrupted)
         else setc c (w_status Scheduled) ;;; reschedule c t'' p u cap))
      (fun _ s' => (xltb t (Fin (now s)) = true -> capped cap s = true) /\ booked c (eff t s) p u s s' /\ now s' = now s /\ c_status (comps s' c) = Scheduled)
      (fun e s' => incl (evl s') (evl s) /\ (xltb t (Fin (now s)) = true /\ capped cap s = false /\ e = ValueErr \/ e = ValueErr /\ c_status (comps s c) = Data)) s1).
    { intros t' ->. apply wp_bind, wp_get, wp_bind. rewrite N. cbn [negb Z.eqb].
      assert (C1 : capped cap s1 = capped cap s) by (destruct cap; auto).
      assert (K : forall t2, t2 = eff t s -> (xltb t (Fin (now s)) = true -> capped cap s = true) -> wp (setc c (w_status Scheduled);;; reschedule c t2 p u cap)
         (fun _ s' => (xltb t (Fin (now s)) = true -> capped cap s = true) /\ booked c (eff t s) p u s s' /\ now s' = now s /\ c_status (comps s' c) = Scheduled)
      (fun e s' => incl (evl s') (evl s) /\ (xltb t (Fin (now s)) = true /\ capped cap s = false /\ e = ValueErr \/ e = ValueErr /\ c_status (comps s c) = Data)) s1).
      { intros t2 -> L. eapply wp_conseq; [apply (w_tail c (eff t s) p u cap s s1 R E Z) | |]; cbv beta.
        - rewrite eff_eff. tauto.
        - rewrite eff_notpast. intros ? ? (_ & ? & _). discriminate. }
      destruct (xltb t (Fin (now s))) eqn:L.
      - apply wp_bind, wp_get. rewrite C1. apply wp_if; intros B.
        + apply wp_get. apply K; auto. unfold eff. rewrite L, N. auto.
        + apply wp_raise. split; [rewrite E; apply incl_others | auto].
      - apply wp_ret. apply K; [|discriminate]. unfold eff. rewrite L. auto. }
    destruct sp; cbn in T; try discriminate; injection T as <-; apply wp_bind, wp_get; apply E1; rewrite ?N, ?O; auto.
  - intros e s1 (-> & -> & D). split; [apply incl_refl | auto].
Qed.
Lemma activate_post : forall c a d p u pr kr kw cap s, PI s ->
  wp (activate c a d p u pr kr kw cap)
    (fun _ s' => (xltb (at_time a d s) (Fin (now s)) = true -> capped cap s = true) /\ booked c (eff (at_time a d s) s) p u s s' /\ now s' = now s /\
       c_status (comps s' c) = Scheduled)
    (fun e s' => incl (evl s') (evl s) /\ (xltb (at_time a d s) (Fin (now s)) = true /\ capped cap s = false /\ e = ValueErr \/
       e = AttrErr /\ c_status (comps s c) = Data /\ c_hasproc (comps s c) = false)) s.
Proof.
  intros c a d p u pr kr kw cap s [Q S]. unfold activate. apply wp_bind, wp_stat, wp_bind, wp_get, wp_bind.
  apply wp_when; intros C.
  { apply wp_raise. split; [apply incl_refl|]. right. apply andb_prop in C. destruct C as (C & H). apply andb_prop in C. destruct C as (_ & C).
    apply steqb_iff in C. apply negb_true_iff in H. auto. }
  clear C. apply wp_bind.
  assert (Z0 : (0 <= seq s)%Z) by apply Q.
  assert (X : forall s0, same0 c s s0 -> EI s0 -> GI none s0 -> evl s0 = evl s -> (c_status (comps s c) = Current -> evl s0 = others c s) ->
    wp (when (negb (steqb (c_status (comps s c)) Current)) (remove c ;;; when ((pr || steqb (c_status (comps s c)) Data) || negb (kr || kw)) (check_fail c)))
      (fun _ s1 => same0 c s s1 /\ evl s1 = others c s /\ (0 <= seq s1)%Z) (fun _ _ => False) s0).
  { intros s0 S0 E0 G0 V0 C0. assert (O0 : others c s0 = others c s) by (unfold others; rewrite V0; auto).
    apply wp_when; intros C; [|apply negb_false_iff, steqb_iff in C; split; [auto|]; split; [auto | apply E0]].
    destruct ((pr || steqb (c_status (comps s c)) Data) || negb (kr || kw)); cbn [when].
    - eapply wp_conseq; [apply ready_prep; auto | cbv beta | auto]. intros _ s1 (A & _ & B & Z). split; [eapply same0_po; eauto|]. rewrite B. auto.
    - apply wp_bind. eapply wp_conseq; [eapply wp_conjX with (X := fun _ _ => False); [apply (frames_wp _ _ _ s0 (z_remove c c)) |
        eapply wp_conjX with (X := fun _ _ => False); [apply w_remove with (Q := fun _ s' => EI s' /\ Off c s') (X := fun _ _ => False); auto | apply w_remove_others; auto | auto] | auto] | cbv beta | auto].
      intros _ s1 (A & (B & _) & V). apply wp_ret. split; [eapply same0_po; eauto|]. rewrite V. split; [auto | apply B]. }
  assert (Y : forall s0, same0 c s s0 -> EI s0 -> GI none s0 -> evl s0 = evl s -> 
    wp (when (negb (steqb (c_status (comps s c)) Current)) (remove c ;;; when ((pr || steqb (c_status (comps s c)) Data) || negb (kr || kw)) (check_fail c)) ;;;
      (t <- get (fun s => match a with None => xadd (Fin (now s)) d | Some a => xadd (xaddq a (off s)) d end) ;;
       setc c (w_status Scheduled) ;;; reschedule c t p u cap))
     (fun _ s' => (xltb (at_time a d s) (Fin (now s)) = true -> capped cap s = true) /\ booked c (eff (at_time a d s) s) p u s s' /\ now s' = now s /\
       c_status (comps s' c) = Scheduled)
    (fun e s' => incl (evl s') (evl s) /\ (xltb (at_time a d s) (Fin (now s)) = true /\ capped cap s = false /\ e = ValueErr \/
       e = AttrErr /\ c_status (comps s c) = Data /\ c_hasproc (comps s c) = false)) s0).
  { intros s0 S0 E0 G0 V0. apply wp_bind. eapply wp_conseq; [apply (X s0); auto | cbv beta | intros ? ? []].
    - intros C. rewrite V0. symmetry. apply others_all, evs_off; [apply Q|]. apply EI_stat_off; [apply Q|]. rewrite C. intros [|[|]]; discriminate.
    - intros _ s1 (S1 & V1 & Z1). apply wp_bind, wp_get.
      assert (T : match a with None => xadd (Fin (now s1)) d | Some a0 => xadd (xaddq a0 (off s1)) d end = at_time a d s).
      { destruct S1 as (N & O & _). unfold at_time. destruct a; congruence. }
      rewrite T. eapply wp_conseq; [apply (w_tail c _ p u cap s s1 S1 V1 Z1) | |]; cbv beta; tauto. }
  assert (U : wp (when (pr || steqb (c_status (comps s c)) Data) (setc c (w_retry [])))
    (fun _ s0 => same0 c s s0 /\ EI s0 /\ GI none s0 /\ evl s0 = evl s) (fun _ _ => False) s).
  { apply wp_when; intros _.
    - apply wp_setc. split; [apply same0_comp; auto|]. split; [eapply EI_Eeq; [apply Q | eeq]|]. split; [apply GI_comp; [reflexivity | apply Q] | auto].
    - split; [apply same0_po|]. split; [apply Q|]. split; [apply Q | auto]. }
  eapply wp_conseq; [apply U | cbv beta | intros ? ? []]. intros _ s0 (S0 & E0 & G0 & V0). apply Y; auto.
Qed.
Lemma create_post : forall c a d p u sk cap s, PI s -> pristine s c ->
  wp (create c a d p u sk cap)
    (fun _ s' => (xltb (at_time a d s) (Fin (now s)) = true -> capped cap s = true) /\ booked c (eff (at_time a d s) s) p u s s' /\ now s' = now s /\
       c_status (comps s' c) = Scheduled)
    (fun e s' => incl (evl s') (evl s) /\ xltb (at_time a d s) (Fin (now s)) = true /\ capped cap s = false /\ e = ValueErr) s.
Proof.
  intros c a d p u sk cap s [Q S] P. unfold create. apply wp_bind, wp_setc, wp_bind, wp_get.
  change (now (m_comp c (w_skip sk) s)) with (now s). change (off (m_comp c (w_skip sk) s)) with (off s). fold (at_time a d s).
  apply w_tail; [apply same0_comp; auto | | apply Q].
  symmetry. cbn. apply others_all, evs_off; [apply Q|]. unfold Off. unfold pristine, pristineb in P. repeat (apply andb_prop in P; destruct P as (P & ?)).
  apply negb_true_iff. auto.
Qed.
Lemma run_post : forall sp p u cap s t, PI s -> c_status (comps s main) = Current -> run_time sp s = Some t ->
  wp (run sp p u cap)
    (fun _ s' => (xltb t (Fin (now s)) = true -> capped cap s = true) /\ booked main (eff t s) p u s s' /\ now s' = now s /\
       c_status (comps s' main) = Scheduled /\ eoe s' = (match sp with SNone => true | _ => false end) /\ running s' = true)
    (fun e s' => incl (evl s') (evl s) /\ xltb t (Fin (now s)) = true /\ capped cap s = false /\ e = ValueErr) s.
Proof.
  intros sp p u cap s t [Q S] C T. unfold run. apply wp_bind, wp_put, wp_bind.
  assert (V : evl s = others main s).
  { symmetry. apply others_all, evs_off; [apply Q|]. apply EI_stat_off; [apply Q|]. rewrite C. intros [|[|]]; discriminate. }
  assert (K : forall s1 t' b, t' = t -> same0 main s s1 -> evl s1 = evl s -> seq s1 = seq s -> eoe s1 = b ->
    wp (setc main (w_status Scheduled) ;;; reschedule main t' p u cap ;;; put (s_running true))
    (fun _ s' => (xltb t (Fin (now s)) = true -> capped cap s = true) /\ booked main (eff t s) p u s s' /\ now s' = now s /\
       c_status (comps s' main) = Scheduled /\ eoe s' = b /\ running s' = true)
    (fun e s' => incl (evl s') (evl s) /\ xltb t (Fin (now s)) = true /\ capped cap s = false /\ e = ValueErr) s1).
  { intros s1 t' b -> R E Z B. apply wp_assoc. apply wp_bind.
    assert (F : frames (fun a b => eoe b = eoe a) (setc main (w_status Scheduled) ;;; reschedule main t p u cap)).
    { unfold reschedule, push. fgo (ltac:(constructor; intros; congruence) : preorder (fun a b : env => eoe b = eoe a)); reflexivity. }
    eapply wp_conseq; [eapply wp_conjX; [apply (frames_wp _ _ _ s1 F) | apply (w_tail main t p u cap s s1); auto; [congruence | rewrite Z; apply Q] |] | |]; cbv beta.
    - intros ? ? _ H. exact H.
    - intros _ s2 (G & H). apply wp_put. cbn [eoe s_running running now]. intuition (try congruence).
    - auto. }
  destruct sp; cbn in T; try discriminate; injection T as <-.
  - apply wp_bind, wp_put, wp_ret. apply K; auto. apply same0_same; auto.
  - apply wp_get. apply K; auto. apply same0_same; auto.
  - apply wp_get. apply K; auto. apply same0_same; auto.
Qed.
Lemma resume_post0 : forall c al p u s, (0 <= seq s)%Z -> evs c s = [] -> c_istat (comps s c) = Scheduled ->
  c_status (comps s c) = Interrupted -> c_ilevel (comps s c) = 1%Z \/ al = true ->
  let t := xadd (Fin (now s)) (c_rem (comps s c)) in
  wp (resume c al p u)
    (fun _ s' => (xltb t (Fin (now s)) = true -> False) /\ booked c (eff t s) p u s s' /\ now s' = now s /\ c_status (comps s' c) = Scheduled /\
       stby s' = stby s /\ pend s' = pend s /\ qs s' = qs s)
    (fun e s' => incl (evl s') (evl s) /\ xltb t (Fin (now s)) = true /\ e = ValueErr) s.
Proof.
  intros c al p u s Z V J I L t. unfold resume. apply wp_bind, wp_stat. rewrite I. cbn [steqb].
  apply wp_bind, wp_setc, wp_bind, wp_get. rewrite comps_same. cbn [c_ilevel w_ilevel].
  assert (B : negb (c_ilevel (comps s c) - 1 =? 0)%Z && negb al = false).
  { destruct L as [L | ->]; [rewrite L; auto | apply andb_false_r]. }
  rewrite B. apply wp_bind, wp_setc, wp_bind, wp_stat. rewrite !comps_same. cbn [c_status w_status c_istat w_ilevel].
  rewrite J. cbn [steqb].
  apply wp_bind, wp_get. rewrite !comps_same. cbn [c_rem w_status w_ilevel].
  set (s2 := m_comp c _ _). change (now s2) with (now s). fold t. apply others_all in V. symmetry in V.
  eapply wp_conseq; [apply (w_book c t p u (Some false) s2 s); [exact Z | exact V] | |]; cbv beta; change (now s2) with (now s); cbn [capped].
  - intros _ s' (A & D & N & F & G). split; [intros K; specialize (A K); discriminate|]. split; [exact D|]. split; [auto|].
    split; [|exact G]. rewrite F. unfold s2. rewrite !comps_same. cbn. auto.
  - intros e s' (-> & -> & A & _). split; [apply incl_refl | auto].
Qed.
Lemma resume_post : forall c al p u s, PI s -> c_status (comps s c) = Interrupted -> c_ilevel (comps s c) = 1%Z \/ al = true ->
  let t := xadd (Fin (now s)) (c_rem (comps s c)) in
  wp (resume c al p u)
    (fun _ s' => (xltb t (Fin (now s)) = true -> False) /\ booked c (eff t s) p u s s' /\ now s' = now s /\ c_status (comps s' c) = Scheduled)
    (fun e s' => incl (evl s') (evl s) /\ xltb t (Fin (now s)) = true /\ e = ValueErr) s.
Proof.
  intros c al p u s [Q S] I L t. eapply wp_conseq; [apply resume_post0; auto; [apply Q | | apply (ki_l _ (qi_k _ Q)); auto] | |]; cbv beta; auto.
  - apply evs_off; [apply Q|]. apply EI_stat_off; [apply Q|]. rewrite I. intros [|[|]]; discriminate.
  - tauto.
Qed.
Lemma remaining_post : forall c v p u s, PI s -> schedst (c_status (comps s c)) ->
  let t := xadd v (Fin (now s)) in
  wp (set_remaining c v p u)
    (fun _ s' => (xltb t (Fin (now s)) = true -> False) /\ booked c (eff t s) p u s s' /\ now s' = now s /\ c_status (comps s' c) = c_status (comps s c))
    (fun e s' => incl (evl s') (evl s) /\ xltb t (Fin (now s)) = true /\ e = ValueErr) s.
Proof.
  intros c v p u s [Q S] C t. unfold set_remaining. apply wp_bind, wp_stat.
  replace (steqb (c_status (comps s c)) Passive || steqb (c_status (comps s c)) Interrupted) with false by (destruct C as [C|[C|C]]; rewrite C; auto).
  replace (steqb (c_status (comps s c)) Current) with false by (destruct C as [C|[C|C]]; rewrite C; auto).
  replace (steqb (c_status (comps s c)) Standby) with false by (destruct C as [C|[C|C]]; rewrite C; auto).
  apply wp_bind. eapply wp_conseq; [eapply wp_conjX with (X := fun _ _ => False); [apply (frames_wp _ _ _ s (z_remove c c)) |
        eapply wp_conjX with (X := fun _ _ => False); [apply w_remove with (Q := fun _ s' => EI s' /\ Off c s') (X := fun _ _ => False); [apply Q|auto] | apply w_remove_others; apply Q | auto] | auto] | cbv beta | intros ? ? []].
  intros _ s1 ((N & _ & _ & _ & _ & _ & _ & ST) & (E & _) & V). apply wp_bind, wp_get. rewrite N. fold t.
  eapply wp_conseq; [apply (w_book c t p u (Some false) s1 s); [apply E | exact V] | |]; cbv beta; rewrite N; cbn [capped].
  - intros _ s' (A & D & G & F & _). split; [intros K; specialize (A K); discriminate|]. split; [|split; congruence].
    unfold eff in *. rewrite N in D. exact D.
  - intros e s' (-> & -> & A & _). split; [rewrite V; apply incl_others | auto].
Qed.

(** ** The calls that register c somewhere, with a time limit *)
Definition fail_at (sp : spec) (s : env) : option xq :=
  match sp with SNone => Some PInf | SDur d => Some (xadd (Fin (now s)) d) | STill t => Some (xaddq t (off s)) | SBoth => None end.
(** the time limit: an event of c at t (or now, if that is capped) *)
Definition limited (c : nat) (t p : xq) (u : bool) (cap : option bool) (s s' : env) : Prop :=
  (xltb t (Fin (now s)) = true -> capped cap s = true) /\ c_sched (comps s' c) = eff t s /\
  match eff t s with Fin q => exists n, (0 < n)%Z /\ In (mkEv q p (if u then - n else n)%Z c) (evl s') | PInf => True end.
Definition nd (s s' : env) : Prop := now s' = now s /\ off s' = off s /\ defcap s' = defcap s /\ ((0 <= seq s)%Z -> (0 <= seq s')%Z).
Lemma nd_po : preorder nd. Proof. constructor; unfold nd; intuition congruence. Qed.
Lemma nd_same : forall s s', now s' = now s -> off s' = off s -> defcap s' = defcap s -> seq s' = seq s -> nd s s'. Proof. unfold nd. intros s s' A B C ->. auto. Qed.
Lemma nd_remove : forall c, frames nd (remove c). Proof. intros. unfold remove. fgo nd_po; apply nd_same; reflexivity. Qed.
Lemma nd_resched : forall c t p u cap, frames nd (reschedule c t p u cap).
Proof.
  intros c t p u cap s. unfold reschedule, push, bind, get, ret, raise, put, setc. cbv beta.
  destruct (xltb t (Fin (now s))); [destruct (capped cap s)|]; cbn; try destruct t; cbn; unfold nd; cbn; repeat split; intros; try lia.
Qed.
Lemma nd_c : forall c f s, nd s (m_comp c f s). Proof. intros; apply nd_same; reflexivity. Qed.
Lemma nd_r : forall c f s, nd s (m_rsc c f s). Proof. intros; apply nd_same; reflexivity. Qed.
Lemma nd_q : forall c f s, nd s (m_q c f s). Proof. intros; apply nd_same; reflexivity. Qed.
Lemma nd_k : forall k v, frames nd (set_kmav k v). Proof. intros k v s. apply nd_same; reflexivity. Qed.
Lemma nd_check_fail : forall c, frames nd (check_fail c). Proof. intros. apply (g_check_fail nd nd_po); auto using nd_c, nd_r, nd_q. Qed.
Lemma nd_r_try : forall n r, frames nd (r_try n r). Proof. intros. apply (g_r_try nd nd_po); auto using nd_c, nd_r, nd_q, nd_remove, nd_resched. Qed.
Lemma nd_c_try : forall n c, frames nd (c_try (r_try n) c). Proof. intros. apply (g_c_try nd nd_po); auto using nd_c, nd_r, nd_q, nd_remove, nd_resched, nd_r_try. Qed.
Lemma nd_request1 : forall n c m a, frames nd (request1 n c m a).
Proof. intros. apply (g_request1 nd nd_po); auto using nd_c, nd_r, nd_q, nd_remove, nd_resched. Qed.
Lemma nd_wait1 : forall c a, frames nd (wait1 c a). Proof. intros. apply (g_wait1 nd nd_po); auto using nd_c, nd_r, nd_q. Qed.
Lemma nd_c_trywait : forall c, frames nd (c_trywait c). Proof. intros. apply (g_c_trywait nd nd_po); auto using nd_c, nd_r, nd_q, nd_remove, nd_resched. Qed.
Lemma nd_q_enter : forall q c p, frames nd (q_enter q c p). Proof. intros. unfold q_enter. fgo nd_po. apply nd_q. Qed.
Lemma nd_prep : forall c st, frames nd (when (negb (steqb st Current)) (check_notdata c ;;; check_notmain c ;;; remove c ;;; check_fail c)).
Proof. intros. unfold check_notdata, check_notmain. fgo nd_po; auto using nd_remove, nd_check_fail. Qed.
Lemma nd_setc : forall c f, frames nd (setc c f). Proof. intros c f s. apply nd_c. Qed.
#[export] Hint Resolve nd_remove nd_resched nd_check_fail nd_r_try nd_c_try nd_request1 nd_wait1 nd_c_trywait nd_q_enter nd_prep nd_setc : fnd.
Lemma nd_step : forall A B (m : M A) (k : A -> M B) (Q : B -> env -> Prop) s s1, frames nd m -> nd s s1 ->
  (forall a s2, nd s s2 -> wp (k a) Q (fun _ _ => True) s2) -> wp (bind m k) Q (fun _ _ => True) s1.
Proof.
  intros A B m k Q s s1 F N K. apply wp_bind. eapply wp_conseq; [apply (frames_wp _ _ _ s1 F) | |]; cbv beta; auto.
  intros a s2 H. apply K. eapply nd_po; eauto.
Qed.
Lemma nd_tail : forall c t p u cap s s1, nd s s1 -> (0 <= seq s)%Z ->
  wp (reschedule c t p u cap) (fun _ s' => limited c t p u cap s s') (fun _ _ => True) s1.
Proof.
  intros c t p u cap s s1 (N & _ & D & Z) Z0. assert (Z1 : (0 <= seq s1)%Z) by auto.
  assert (C : capped cap s1 = capped cap s) by (destruct cap; auto).
  eapply wp_conseq; [apply w_reschedule | |]; cbv beta; auto. rewrite C. unfold eff. rewrite N. fold (eff t s).
  intros _ s' (A & B & E & _). split; [auto|]. split; [auto|]. destruct (eff t s) as [q|]; auto. cbn in B.
  exists (seq s1 + 1)%Z. split; [lia|]. rewrite B, in_app_iff. right. left. auto.
Qed.
Lemma nd_fail : forall B sp t (k : xq -> M B) (Q : B -> env -> Prop) s s1, nd s s1 -> fail_at sp s = Some t ->
  wp (k t) Q (fun _ _ => True) s1 -> wp (bind (fail_time sp) k) Q (fun _ _ => True) s1.
Proof.
  intros B sp t k Q s s1 (N & O & _) T K. apply wp_bind. unfold fail_time. destruct sp; cbn [fail_at] in T; try discriminate; injection T as <-;
    [apply wp_ret | apply wp_get | apply wp_get]; rewrite ?N, ?O; auto.
Qed.
Lemma request_limit : forall n c args oo f p u cap s t, (0 <= seq s)%Z -> args <> [] -> fail_at f s = Some t ->
  wp (request n c args oo f p u cap) (fun _ s' => c_requests (comps s' c) <> [] -> limited c t p u cap s s') (fun _ _ => True) s.
Proof.
  intros n c args oo f p u cap s t Z NA T. unfold request.
  eapply nd_step; [auto with fnd | apply nd_po | intros _ s1 H1]. apply wp_bind, wp_stat.
  eapply nd_step; [auto with fnd | eauto | intros _ s2 H2].
  eapply nd_fail; [eauto | eauto |].
  eapply nd_step; [auto with fnd | eauto | intros _ s3 H3]. destruct args as [|a l]; [congruence|].
  eapply nd_step; [apply (fr_mfor _ nd_po); auto with fnd | eauto | intros _ s4 H4]. apply wp_bind, wp_get.
  eapply nd_step; [apply (fr_mfor _ nd_po); intros; fgo nd_po; apply nd_r | eauto | intros _ s5 H5]. apply wp_bind, wp_get.
  eapply nd_step; [auto with fnd | eauto | intros _ s6 H6].
  eapply nd_step; [auto with fnd | eauto | intros _ s7 H7].
  apply wp_bind, wp_get. apply wp_when; intros C.
  - eapply nd_step; [auto with fnd | eauto | intros _ s8 H8]. eapply wp_conseq; [apply (nd_tail c t p u cap s s8); auto | auto | auto].
  - intros N. apply nonnil_false in C. congruence.
Qed.
Lemma wait_limit : forall c args al f p u cap s t, (0 <= seq s)%Z -> fail_at f s = Some t ->
  wp (wait c args al f p u cap) (fun _ s' => c_waits (comps s' c) <> [] -> limited c t p u cap s s') (fun _ _ => True) s.
Proof.
  intros c args al f p u cap s t Z T. unfold wait.
  eapply nd_step; [auto with fnd | apply nd_po | intros _ s1 H1]. apply wp_bind, wp_stat.
  eapply nd_step; [auto with fnd | eauto | intros _ s2 H2].
  eapply nd_step; [auto with fnd | eauto | intros _ s3 H3].
  eapply nd_step; [auto with fnd | eauto | intros _ s4 H4].
  eapply nd_fail; [eauto | eauto |].
  eapply nd_step; [apply (fr_mfor _ nd_po); auto with fnd | eauto | intros _ s5 H5]. apply wp_bind, wp_get.
  eapply nd_step; [fgo nd_po | eauto | intros _ s6 H6]. apply wp_bind, wp_get.
  eapply nd_step; [auto with fnd | eauto | intros _ s7 H7].
  eapply nd_step; [auto with fnd | eauto | intros _ s8 H8].
  apply wp_bind, wp_get. apply wp_when; intros C.
  - eapply nd_step; [auto with fnd | eauto | intros _ s9 H9]. eapply wp_conseq; [apply (nd_tail c t p u cap s s9); auto | auto | auto].
  - intros N. apply nonnil_false in C. congruence.
Qed.
Lemma wait_for_limit : forall c cd l f p u cap s t, (0 <= seq s)%Z -> fail_at f s = Some t ->
  wp (wait_for c cd l f p u cap) (fun _ s' => c_waits (comps s' c) <> [] -> limited c t p u cap s s') (fun _ _ => True) s.
Proof.
  intros c cd l f p u cap s t Z T. unfold wait_for. apply wp_bind, wp_stat.
  eapply nd_step; [auto with fnd | apply nd_po | intros _ s2 H2].
  eapply nd_step; [auto with fnd | eauto | intros _ s3 H3].
  eapply nd_fail; [eauto | eauto |].
  eapply nd_step; [auto with fnd | eauto | intros _ s4 H4].
  eapply nd_step; [apply (fr_mfor _ nd_po); intros; apply (fr_bind _ nd_po); auto with fnd | eauto | intros _ s5 H5]. apply wp_bind, wp_get.
  eapply nd_step; [fgo nd_po | eauto | intros _ s6 H6]. apply wp_bind, wp_get.
  eapply nd_step; [auto with fnd | eauto | intros _ s7 H7].
  eapply nd_step; [auto with fnd | eauto | intros _ s8 H8].
  apply wp_bind, wp_get. apply wp_when; intros C.
  - eapply nd_step; [auto with fnd | eauto | intros _ s9 H9]. eapply wp_conseq; [apply (nd_tail c t p u cap s s9); auto | auto | auto].
  - intros N. apply nonnil_false in C. congruence.
Qed.

Definition nu (c : nat) (s s' : env) : Prop := nd s s' /\ unrc c s'.
Lemma nu_step : forall c A B (m : M A) (k : A -> M B) (Q : B -> env -> Prop) s s1, frames nd m -> frames (Ru c) m -> nu c s s1 ->
  (forall a s2, nu c s s2 -> wp (k a) Q (fun _ _ => True) s2) -> wp (bind m k) Q (fun _ _ => True) s1.
Proof.
  intros c A B m k Q s s1 F G (N & U) K. apply wp_bind.
  eapply wp_conseq; [eapply wp_conj; [apply (frames_wp _ _ _ s1 F) | apply (frames_wp _ _ _ s1 G)] | |]; cbv beta; auto.
  intros a s2 (H & H'). apply K. split; [eapply nd_po; eauto | auto].
Qed.
Lemma nu_prep : forall c B (k : unit -> M B) (Q : B -> env -> Prop) s, RI s ->
  (forall s2, nu c s s2 -> wp (k tt) Q (fun _ _ => True) s2) ->
  wp (bind (when (negb (steqb (c_status (comps s c)) Current)) (check_notdata c ;;; check_notmain c ;;; remove c ;;; check_fail c)) k) Q (fun _ _ => True) s.
Proof.
  intros c B k Q s H K. apply wp_bind.
  eapply wp_conseq; [eapply wp_conj; [apply (frames_wp _ _ _ s (nd_prep c (c_status (comps s c)))) | apply (r_prep c s (fun _ s' => unrc c s')); auto] | |]; cbv beta; auto.
  intros [] s2 (A & C). apply K. split; auto.
Qed.
Lemma u_setc : forall x c f, (forall y, c_waits (f y) = c_waits y /\ c_from (f y) = c_from y /\ c_to (f y) = c_to y) -> frames (Ru x) (setc c f).
Proof. intros x c f H s. apply Ru_comp. unfold unr. destruct (H (comps s c)) as (-> & -> & ->). auto. Qed.
Lemma nd_item_leave : forall n k i, frames nd (item_leave n k i).
Proof. intros. apply (g_item_leave nd nd_po); auto using nd_c, nd_r, nd_q, nd_remove, nd_resched; intros; apply nd_same; reflexivity. Qed.
Lemma nd_to_try : forall n c i p ks, frames nd (to_try n c i p ks).
Proof. intros. apply (g_to_try nd nd_po); auto using nd_c, nd_r, nd_q, nd_remove, nd_resched; intros; apply nd_same; reflexivity. Qed.
#[export] Hint Resolve nd_item_leave nd_to_try : fnd.
Lemma from_store_limit : forall n c ks f key rp fl fp u cap s t, RI s -> (0 <= seq s)%Z -> fail_at fl s = Some t ->
  wp (from_store n c ks f key rp fl fp u cap) (fun _ s' => c_from (comps s' c) <> [] -> limited c t fp u cap s s') (fun _ _ => True) s.
Proof.
  intros n c ks f key rp fl fp u cap s t R Z T. unfold from_store. apply wp_bind, wp_when; intros C0; [apply wp_raise; auto|].
  apply wp_bind, wp_stat. apply nu_prep; auto. intros s2 H2. eapply nd_fail; [apply H2 | eauto |].
  eapply nu_step; [auto with fnd | apply u_setc; intros; repeat split | eauto | intros _ s3 H3]. apply wp_bind, wp_get.
  destruct (find_item s3 f key None ks 0) as [[i|] k].
  - eapply nu_step; [auto with fnd | apply u_item_leave | eauto | intros _ s4 H4].
    eapply nu_step; [auto with fnd | apply u_setc; intros; repeat split | eauto | intros _ s5 H5].
    eapply nu_step; [auto with fnd | apply u_remove | eauto | intros _ s6 H6].
    eapply nu_step; [auto with fnd | apply u_setc; intros; repeat split | eauto | intros _ s7 H7]. apply wp_bind, wp_get.
    eapply wp_conseq; [apply (frames_wp _ _ _ s7 (u_reschedule c c (Fin (now s7)) (Fin 0) false (Some false))) | cbv beta | auto].
    intros _ s8 H8 N. destruct (H8 (proj2 H7)) as (_ & E & _). congruence.
  - destruct H3 as (H3 & _).
    eapply nd_step; [auto with fnd | eauto | intros _ s4 H4].
    eapply nd_step; [apply (fr_mfor _ nd_po); auto with fnd | eauto | intros _ s5 H5].
    eapply nd_step; [auto with fnd | eauto | intros _ s6 H6].
    eapply nd_step; [auto with fnd | eauto | intros _ s7 H7].
    eapply nd_step; [auto with fnd | eauto | intros _ s8 H8].
    eapply wp_conseq; [apply (nd_tail c t fp u cap s s8); auto | auto | auto].
Qed.
Lemma to_store_limit : forall n c ks i rp p fl fp u cap s t, RI s -> (0 <= seq s)%Z -> fail_at fl s = Some t ->
  wp (to_store n c ks i rp p fl fp u cap) (fun _ s' => c_to (comps s' c) <> [] -> limited c t fp u cap s s') (fun _ _ => True) s.
Proof.
  intros n c ks i rp p fl fp u cap s t R Z T. unfold to_store. apply wp_bind, wp_when; intros C0; [apply wp_raise; auto|].
  apply wp_bind, wp_stat. apply nu_prep; auto. intros s2 H2. eapply nd_fail; [apply H2 | eauto |].
  eapply nu_step; [auto with fnd | apply u_setc; intros; repeat split | eauto | intros _ s3 H3].
  eapply nu_step; [auto with fnd | apply u_to_try | eauto | intros b s4 H4]. destruct b.
  - apply wp_ret. intros N. destruct H4 as (_ & _ & _ & E). congruence.
  - destruct H4 as (H4 & _).
    eapply nd_step; [apply (fr_mfor _ nd_po); auto with fnd | eauto | intros _ s5 H5].
    eapply nd_step; [auto with fnd | eauto | intros _ s6 H6].
    eapply nd_step; [auto with fnd | eauto | intros _ s7 H7].
    eapply nd_step; [auto with fnd | eauto | intros _ s8 H8].
    eapply nd_step; [auto with fnd | eauto | intros _ s9 H9].
    eapply wp_conseq; [apply (nd_tail c t fp u cap s s9); auto | auto | auto].
Qed.
