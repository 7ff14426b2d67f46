(** Which statuses a call can lead to: a pass over all calls.  Whatever happens, the status of a component stays what it is
    or becomes Scheduled, except for component [c0], which may also get one of the statuses [A]. *)
From Coq Require Import QArith Lqa List Bool Arith ZArith Lia.
From Verif Require Import Base Kernel Wp KernelE KernelL KernelX KernelT KernelU KernelR KernelQ.
Import ListNotations.
Open Scope Q_scope.

Definition RJ (c0 : nat) (A : status -> Prop) (s s' : env) : Prop := forall x,
  c_status (comps s' x) = c_status (comps s x) \/ c_status (comps s' x) = Scheduled \/ (x = c0 /\ A (c_status (comps s' x))).
Lemma RJ_po : forall c0 A, preorder (RJ c0 A).
Proof.
  constructor; unfold RJ; [auto|]. intros a b c H K x. destruct (K x) as [E|[E|E]]; auto. rewrite E. apply H.
Qed.

Section J.
  Context (c0 : nat) (A : status -> Prop).
  Local Notation R := (RJ c0 A).
  Let PO := RJ_po c0 A.
  Lemma J_comp : forall c f s, (forall y, c_status (f y) = c_status y \/ c_status (f y) = Scheduled \/ (c = c0 /\ A (c_status (f y)))) ->
    R s (m_comp c f s).
  Proof. intros c f s H x. rewrite comps_m_comp. destruct (Nat.eqb_spec x c) as [->|]; auto. Qed.
  Lemma J_same : forall s s', comps s' = comps s -> R s s'.
  Proof. intros s s' E x. rewrite E. auto. Qed.

  Ltac jj := first [ solve [auto] | apply J_comp; intros; cbn; solve [auto 6] | apply J_same; reflexivity ].
  Ltac g := fgo PO; try (solve [jj]).
  Lemma j_q_enter : forall q c p, frames R (q_enter q c p). Proof. intros. unfold q_enter. g. Qed.
  Lemma j_q_leave : forall q c, frames R (q_leave q c). Proof. intros. unfold q_leave. g. Qed.
  Lemma j_q_prio : forall q c, frames R (q_prio q c). Proof. intros. unfold q_prio. g. Qed.
  Lemma j_remove : forall c, frames R (remove c). Proof. intros. unfold remove. g. Qed.
  Lemma j_reschedule : forall c t p u cap, frames R (reschedule c t p u cap). Proof. intros. unfold reschedule, push. g. Qed.
  Lemma j_leave_req : forall c r, frames R (leave_req c r).
  Proof. intros. unfold leave_req. g. apply j_q_leave. Qed.
  Lemma j_check_fail : forall c, frames R (check_fail c).
  Proof. intros. unfold check_fail. g; auto using j_leave_req, j_q_leave. Qed.
  Lemma j_check_notdata : forall c, frames R (check_notdata c). Proof. intros. unfold check_notdata. g. Qed.
  Lemma j_check_notmain : forall c, frames R (check_notmain c). Proof. intros. unfold check_notmain. g. Qed.
  Lemma j_activate : forall c a d p u pr kr kw cap, frames R (activate c a d p u pr kr kw cap).
  Proof. intros. unfold activate. g; auto using j_remove, j_check_fail, j_reschedule. Qed.
  Lemma j_create : forall c a d p u sk cap, frames R (create c a d p u sk cap).
  Proof. intros. unfold create. g; auto using j_remove, j_check_fail, j_reschedule. Qed.
  Lemma j_hold : forall c sp p u i cap, c = c0 -> (i <> 0%Z -> A Interrupted) -> frames R (hold c sp p u i cap).
  Proof. intros. unfold hold. destruct (Z.eqb_spec i 0); cbn [negb]; g; auto using j_check_notdata, j_remove, j_check_fail, j_reschedule. Qed.
  Lemma j_passivate : forall c, c = c0 -> A Passive -> frames R (passivate c).
  Proof. intros. unfold passivate. g; auto using j_check_notdata, j_remove, j_check_fail, j_reschedule. Qed.
  Lemma j_interrupt : forall c, c = c0 -> A Interrupted -> frames R (interrupt c).
  Proof. intros. unfold interrupt. g; auto using j_check_notdata, j_remove, j_check_fail, j_reschedule. Qed.
  Lemma j_standby : forall c, c = c0 -> A Standby -> frames R (standby c).
  Proof. intros. unfold standby. g; auto using j_check_notdata, j_check_notmain, j_remove, j_check_fail, j_reschedule. Qed.
  Lemma j_set_remaining : forall c v p u, frames R (set_remaining c v p u).
  Proof. intros. unfold set_remaining. g; auto using j_remove, j_check_fail, j_reschedule. Qed.
  Lemma j_honor_one : forall c r q, frames R (honor_one c r q).
  Proof. intros. unfold honor_one. g; auto using j_q_prio. Qed.
  Lemma j_honor_all_from : forall c rq, frames R (honor_all_from c rq).
  Proof. induction rq as [|[r q] t IH]; cbn; g; auto using j_honor_one. Qed.
  Lemma j_honor_any_from : forall c rq, frames R (honor_any_from c rq).
  Proof. induction rq as [|[r q] t IH]; cbn; g; auto using j_honor_one. Qed.
  Lemma j_honor_all : forall c, frames R (honor_all c).
  Proof. intros. unfold honor_all. g; auto using j_honor_all_from. Qed.
  Lemma j_honor_any : forall c, frames R (honor_any c).
  Proof. intros. unfold honor_any. g; auto using j_honor_any_from. Qed.
  Lemma j_claim : forall c r q, frames R (claim c r q).
  Proof. intros. unfold claim. g; auto using j_q_prio, j_q_enter. Qed.
  Lemma j_c_try : forall rt c, (forall r, frames R (rt r)) -> frames R (c_try rt c).
  Proof.
    intros. unfold c_try. g; auto using j_honor_all, j_honor_any, j_claim, j_leave_req, j_remove, j_reschedule.
  Qed.
  Lemma j_rloop : forall ct r an first p1, (forall c, frames R (ct c)) -> forall n mx, frames R (rloop ct n r an first p1 mx).
  Proof. induction n; intros mx; cbn; destruct mx as [[c p]|]; g. Qed.
  Lemma j_r_try : forall n r, frames R (r_try n r).
  Proof. induction n; intros; cbn; g; auto; apply j_rloop; intros; apply j_c_try; auto. Qed.
  Lemma j_release1 : forall n c r q b, frames R (release1 n c r q b).
  Proof. intros. unfold release1. g; auto using j_r_try, j_q_leave. Qed.
  Lemma j_release : forall n c a, frames R (release n c a).
  Proof. intros. unfold release. g; auto using j_release1. Qed.
  Lemma j_release_claimers : forall f n r mx, frames R (release_claimers f n r mx).
  Proof. induction n; intros r mx; cbn [release_claimers]; destruct mx as [[c p]|]; g; auto using j_release. Qed.
  Lemma j_res_release : forall n r q, frames R (res_release n r q).
  Proof. intros. unfold res_release. g; auto using j_r_try, j_release_claimers. Qed.
  Lemma j_set_cap : forall n r q, frames R (set_cap n r q).
  Proof. intros. unfold set_cap. g; auto using j_r_try. Qed.
  Lemma j_cancel : forall n c, c = c0 -> A Data -> frames R (cancel n c).
  Proof. intros. unfold cancel. g; auto using j_remove, j_check_fail, j_release1. Qed.
  Lemma j_fail_time : forall sp, frames R (fail_time sp).
  Proof. intros. unfold fail_time. g. Qed.
  Lemma j_request1 : forall n c m a, frames R (request1 n c m a).
  Proof. intros. unfold request1. destruct a as [[r q] p]. g; auto using j_q_enter, j_release1, j_activate. Qed.
  Lemma j_request : forall n c a o f p u cap, c = c0 -> A Requesting -> frames R (request n c a o f p u cap).
  Proof.
    intros. unfold request.
    g; auto using j_check_notdata, j_check_notmain, j_remove, j_check_fail, j_fail_time, j_reschedule, j_request1, j_c_try, j_r_try.
  Qed.
  Lemma j_c_trywait : forall c, frames R (c_trywait c).
  Proof. intros. unfold c_trywait, leave_wait. g; auto using j_q_leave, j_remove, j_reschedule. Qed.
  Lemma j_s_trywait : forall l m, frames R (s_trywait l m).
  Proof. induction l; intros m; cbn; g; auto using j_c_trywait. Qed.
  Lemma j_wait1 : forall c a, frames R (wait1 c a).
  Proof. intros. unfold wait1. destruct a as [[st f] p]. g; auto using j_q_enter. Qed.
  Lemma j_wait : forall c a al f p u cap, c = c0 -> A Waiting -> frames R (wait c a al f p u cap).
  Proof.
    intros. unfold wait.
    g; auto using j_check_notdata, j_check_notmain, j_remove, j_check_fail, j_fail_time, j_reschedule, j_wait1, j_c_trywait.
  Qed.
  Lemma j_wait_for : forall c a al f p u cap, c = c0 -> A Waiting -> frames R (wait_for c a al f p u cap).
  Proof.
    intros. unfold wait_for.
    g; auto using j_check_notdata, j_check_notmain, j_remove, j_check_fail, j_fail_time, j_reschedule, j_q_enter, j_c_trywait.
  Qed.
  Lemma j_terminate : forall n c, c = c0 -> A Data -> frames R (terminate n c).
  Proof. intros. unfold terminate. g; auto using j_release1. Qed.
  Lemma j_continue : forall n c, frames R (continue n c).
  Proof. intros. unfold continue. g; auto using j_r_try. Qed.
  Lemma j_give : forall d c, frames R (give d c).
  Proof. intros. unfold give. g; auto using j_remove, j_reschedule. Qed.
  Lemma j_leave_from : forall d, frames R (leave_from d).
  Proof. intros. unfold leave_from. g; auto using j_q_leave. Qed.
  Lemma j_leave_to : forall d, frames R (leave_to d).
  Proof. intros. unfold leave_to. g; auto using j_q_leave. Qed.

  (** state values *)
  Lemma j_st_set : forall st v, frames R (st_set st v).
  Proof. intros. unfold st_set, set_sval, st_trywait. g; auto using j_s_trywait. Qed.
  Lemma j_st_trigger : forall st v a m, frames R (st_trigger st v a m).
  Proof. intros. unfold st_trigger, set_sval, st_trywait. g; auto using j_s_trywait. Qed.

  (** stores *)
  Lemma j_set_kmav : forall k v, frames R (set_kmav k v).
  Proof. intros. unfold set_kmav. g. Qed.
  Lemma j_item : forall n, (forall k c w, frames R (item_enter n k c w)) /\ (forall k c, frames R (item_leave n k c)).
  Proof.
    induction n as [|n [IH1 IH2]]; split; intros; cbn;
      g; auto using j_set_kmav, j_leave_from, j_leave_to, j_give, j_remove, j_reschedule.
  Qed.
  Lemma j_item_enter : forall n k c w, frames R (item_enter n k c w). Proof. intros. apply j_item. Qed.
  Lemma j_item_leave : forall n k c, frames R (item_leave n k c). Proof. intros. apply j_item. Qed.
  Lemma j_from_store : forall n c ks f key rp fl fp u cap, c = c0 -> A Requesting -> frames R (from_store n c ks f key rp fl fp u cap).
  Proof.
    intros. unfold from_store.
    g; auto using j_check_notdata, j_check_notmain, j_remove, j_check_fail, j_fail_time, j_reschedule, j_q_enter, j_item_leave.
  Qed.
  Lemma j_to_try : forall n c i p ks, frames R (to_try n c i p ks).
  Proof. induction ks; cbn; g; auto using j_item_enter, j_remove, j_reschedule. Qed.
  Lemma j_to_store : forall n c ks i rp p fl fp u cap, c = c0 -> A Requesting -> frames R (to_store n c ks i rp p fl fp u cap).
  Proof.
    intros. unfold to_store.
    g; auto using j_check_notdata, j_check_notmain, j_remove, j_check_fail, j_fail_time, j_reschedule, j_q_enter, j_to_try.
  Qed.
  Lemma j_rescan_items : forall n k d l, frames R (rescan_items n k d l).
  Proof. induction l; cbn; g; auto using j_leave_from, j_item_leave, j_give. Qed.
  Lemma j_rescan : forall n k, frames R (rescan n k).
  Proof. intros. unfold rescan. g; auto using j_rescan_items. Qed.
  Lemma j_set_filter : forall n c f, frames R (set_filter n c f).
  Proof. intros. unfold set_filter. g; auto using j_rescan. Qed.
  Lemma j_rescan_to_loop : forall n k l, frames R (rescan_to_loop n k l).
  Proof. induction l; cbn; g; auto using j_leave_to, j_item_enter, j_remove, j_reschedule. Qed.
  Lemma j_st_set_cap : forall n k cap, frames R (st_set_cap n k cap).
  Proof. intros. unfold st_set_cap. g; auto using j_set_kmav, j_rescan_to_loop. Qed.

  Lemma j_run : forall sp p u cap, frames R (run sp p u cap).
  Proof. intros. unfold run. g; auto using j_reschedule. Qed.
End J.

Definition nost (st : status) : Prop := False.

(** resume gives back the status before the interrupt, which was Scheduled *)
Lemma j_resume : forall c al p u s, c_status (comps s c) = Interrupted -> c_istat (comps s c) = Scheduled ->
  wp (resume c al p u) (fun _ s' => RJ c nost s s') (fun _ s' => RJ c nost s s') s.
Proof.
  intros c al p u s ST IS. unfold resume. apply wp_bind. unfold stat. apply wp_get. rewrite ST. cbn [steqb].
  apply wp_bind. unfold setc. apply wp_put. apply wp_bind, wp_get.
  set (s1 := m_comp c _ s).
  assert (R1 : RJ c nost s s1) by (apply J_comp; cbn; auto).
  assert (I1 : c_istat (comps s1 c) = Scheduled) by (unfold s1; rewrite comps_same; auto).
  match goal with |- wp (if ?b then _ else _) _ _ _ => destruct b end.
  - apply wp_ret. auto.
  - apply wp_bind. apply wp_put. set (s2 := m_comp c _ s1).
    assert (R2 : RJ c nost s s2).
    { eapply (RJ_po c nost); [exact R1|]. intros x. unfold s2. rewrite comps_m_comp. destruct (Nat.eqb_spec x c) as [->|]; cbn; auto. }
    apply wp_bind. apply wp_get.
    match goal with |- wp (if ?b then _ else _) _ _ _ => destruct b end; [|apply wp_raise; auto].
    apply wp_bind, wp_get.
    eapply wp_conseq; [apply (frames_wp _ _ _ s2 (j_reschedule c nost c _ p u (Some false))) | |]; cbv beta; intros ? s3 K; eapply (RJ_po c nost); eauto.
Qed.
Lemma j_resume_no : forall c al p u s, c_status (comps s c) <> Interrupted ->
  wp (resume c al p u) (fun _ s' => s' = s) (fun _ s' => s' = s) s.
Proof.
  intros c al p u s ST. unfold resume. apply wp_bind. unfold stat. apply wp_get. destruct (c_status (comps s c)) eqn:E; try congruence; cbn [steqb]; apply wp_raise; auto.
Qed.

(** ** One whole call *)
Definition target (s : env) (o : op) : option nat :=
  match o with
  | OCreate c _ _ _ _ _ _ | OActivate c _ _ _ _ _ _ _ _ | OHold c _ _ _ _ _ | OPassivate c | OInterrupt c
  | OResume c _ _ _ | OCancel c | OStandby c | ORemaining c _ _ _ | ORequest c _ _ _ _ _ _ | ORelease c _ | OWait c _ _ _ _ _ _
  | OWaitFor c _ _ _ _ _ _ | OFromStore c _ _ _ _ _ _ _ _ | OToStore c _ _ _ _ _ _ _ _ | OFilter c _ | OTouch c _ | OSkip c _ => Some c
  | OEnd => Some (cur s)
  | ORun _ _ _ _ => Some main
  | _ => None
  end.
Definition makes (o : op) (b : status) : Prop :=
  match o with
  | OHold _ _ _ _ i _ => b = Interrupted /\ i <> 0%Z
  | OPassivate _ => b = Passive
  | OInterrupt _ => b = Interrupted
  | OCancel _ | OEnd => b = Data
  | OStandby _ => b = Standby
  | ORequest _ _ _ _ _ _ _ | OFromStore _ _ _ _ _ _ _ _ _ | OToStore _ _ _ _ _ _ _ _ _ => b = Requesting
  | OWait _ _ _ _ _ _ _ | OWaitFor _ _ _ _ _ _ _ => b = Waiting
  | _ => False
  end.
Lemma j_exec : forall n o s, o <> OStep -> EL s ->
  wp (exec n o) (fun _ s' => RJ (match target s o with Some c => c | None => 0%nat end) (makes o) s s')
                (fun _ s' => RJ (match target s o with Some c => c | None => 0%nat end) (makes o) s s') s.
Proof.
  intros n o s NS L. destruct o; try congruence; cbn [exec target];
    try (apply frames_wp;
      first [ apply j_create | apply j_activate | apply j_passivate; [auto | reflexivity] | apply j_interrupt; [auto | reflexivity] |
              apply j_cancel; [auto | reflexivity] | apply j_standby; [auto | reflexivity] | apply j_set_remaining | apply j_request; [auto | reflexivity] |
              apply j_release | apply j_res_release | apply j_set_cap | apply j_wait; [auto | reflexivity] | apply j_wait_for; [auto | reflexivity] |
              apply j_st_set | apply j_st_trigger | apply j_from_store; [auto | reflexivity] | apply j_to_store; [auto | reflexivity] |
              apply j_item_enter | apply j_item_leave | apply j_st_set_cap | apply j_rescan | apply j_set_filter ]; fail).
  - apply frames_wp. apply j_hold; auto. intros K. split; auto.
  - destruct (steqb (c_status (comps s c)) Interrupted) eqn:E.
    + assert (ST : c_status (comps s c) = Interrupted) by (destruct (c_status (comps s c)); auto; discriminate).
      eapply wp_conseq; [apply (j_resume c all prio urgent s ST); apply (proj2 (L c)); auto | |]; cbv beta; intros ? s' K y;
        (destruct (K y) as [?|[?|(? & [])]]; auto).
    + assert (ST : c_status (comps s c) <> Interrupted) by (intros K; rewrite K in E; discriminate).
      eapply wp_conseq; [apply (j_resume_no c all prio urgent s ST) | |]; cbv beta; intros ? s' ->; apply RJ_po.
  - apply wp_setc. apply J_comp. cbn. auto.
  - apply wp_setc. apply J_comp. cbn. auto.
  - apply wp_put. apply J_same. reflexivity.
  - apply wp_bind, wp_get. apply frames_wp. apply j_terminate; [auto | reflexivity].
  - apply frames_wp. apply j_run.
Qed.

(** ** Calls that touch nobody else *)
Definition quiet (o : op) : bool :=
  match o with
  | OCreate _ _ _ _ _ _ _ | OActivate _ _ _ _ _ _ _ _ _ | OHold _ _ _ _ _ _ | OPassivate _ | OInterrupt _ | OResume _ _ _ _
  | OStandby _ | ORemaining _ _ _ _ | OWait _ _ _ _ _ _ _ | OWaitFor _ _ _ _ _ _ _ | OTouch _ _ | OSkip _ _ | OResetNow _ | ORun _ _ _ _ => true
  | _ => false
  end.
(** a call on c0 that changes the status of nobody else, and that of c0 only to one in [A] *)
Definition RO (c0 : nat) (A : status -> Prop) (s s' : env) : Prop := forall x,
  c_status (comps s' x) = c_status (comps s x) \/ (x = c0 /\ A (c_status (comps s' x))).
Lemma RO_po : forall c0 A, preorder (RO c0 A).
Proof. constructor; unfold RO; [auto|]. intros a b c H K x. destruct (K x) as [E|E]; auto. rewrite E. apply H. Qed.
Section O.
  Context (c0 : nat) (A : status -> Prop).
  Local Notation R := (RO c0 A).
  Let PO := RO_po c0 A.
  Lemma O_comp : forall f s, (forall y, c_status (f y) = c_status y \/ A (c_status (f y))) -> R s (m_comp c0 f s).
  Proof. intros f s H x. rewrite comps_m_comp. destruct (Nat.eqb_spec x c0) as [->|]; auto. destruct (H (comps s c0)); auto. Qed.
  Lemma O_same : forall s s', comps s' = comps s -> R s s'.
  Proof. intros s s' E x. rewrite E. auto. Qed.
  Ltac g := fgo PO; try (solve [first [apply O_comp; intros; cbn; solve [auto] | apply O_same; reflexivity]]).
  Lemma o_q_enter : forall q c p, frames R (q_enter q c p). Proof. intros. unfold q_enter. g. Qed.
  Lemma o_q_leave : forall q c, frames R (q_leave q c). Proof. intros. unfold q_leave. g. Qed.
  Lemma o_remove : frames R (remove c0). Proof. unfold remove. g. Qed.
  Lemma o_resched : forall t p u cap, frames R (reschedule c0 t p u cap). Proof. intros. unfold reschedule, push. g. Qed.
  Lemma o_check_fail : frames R (check_fail c0).
  Proof. unfold check_fail, leave_req. g; auto using o_q_leave. Qed.
  Ltac h := g; auto using o_q_enter, o_q_leave, o_remove, o_resched, o_check_fail.
  Lemma o_create : forall a d p u sk cap, A Scheduled -> frames R (create c0 a d p u sk cap). Proof. intros. unfold create. h. Qed.
  Lemma o_activate : forall a d p u pr kr kw cap, A Scheduled -> frames R (activate c0 a d p u pr kr kw cap). Proof. intros. unfold activate. h. Qed.
  Lemma o_hold : forall sp p u i cap, A (if (i =? 0)%Z then Scheduled else Interrupted) -> frames R (hold c0 sp p u i cap).
  Proof. intros. unfold hold, check_notdata. destruct (Z.eqb_spec i 0); cbn [negb]; h. Qed.
  Lemma o_passivate : A Passive -> frames R (passivate c0). Proof. intros. unfold passivate, check_notdata. h. Qed.
  Lemma o_interrupt : A Interrupted -> frames R (interrupt c0). Proof. intros. unfold interrupt, check_notdata. h. Qed.
  Lemma o_standby : A Standby -> frames R (standby c0). Proof. intros. unfold standby, check_notdata, check_notmain. h. Qed.
  Lemma o_set_remaining : forall v p u, frames R (set_remaining c0 v p u). Proof. intros. unfold set_remaining. h. Qed.
  Lemma o_c_trywait : A Scheduled -> frames R (c_trywait c0). Proof. intros. unfold c_trywait, leave_wait. h. Qed.
  Lemma o_fail_time : forall sp, frames R (fail_time sp). Proof. intros. unfold fail_time. h. Qed.
  Lemma o_wait1 : forall a, frames R (wait1 c0 a). Proof. intros. unfold wait1. destruct a as [[st f] p]. h. Qed.
  Lemma o_wait : forall a al f p u cap, A Scheduled -> A Waiting -> frames R (wait c0 a al f p u cap).
  Proof. intros. unfold wait, check_notdata, check_notmain. h; auto using o_fail_time, o_wait1, o_c_trywait. Qed.
  Lemma o_wait_for : forall a al f p u cap, A Scheduled -> A Waiting -> frames R (wait_for c0 a al f p u cap).
  Proof. intros. unfold wait_for, check_notdata, check_notmain. h; auto using o_fail_time, o_c_trywait. Qed.
End O.
Lemma o_run : forall (A : status -> Prop) sp p u cap, A Scheduled -> frames (RO main A) (run sp p u cap).
Proof.
  intros. unfold run. pose proof (RO_po main A) as PO. fgo PO; try apply o_resched; first [apply O_comp; cbn; auto | apply O_same; reflexivity].
Qed.
Lemma o_resume : forall c al p u s, c_status (comps s c) = Interrupted -> c_istat (comps s c) = Scheduled ->
  wp (resume c al p u) (fun _ s' => RO c (eq Scheduled) s s') (fun _ s' => RO c (eq Scheduled) s s') s.
Proof.
  intros c al p u s ST IS. unfold resume. apply wp_bind. unfold stat. apply wp_get. rewrite ST. cbn [steqb].
  apply wp_bind. unfold setc. apply wp_put. apply wp_bind, wp_get.
  set (s1 := m_comp c _ s).
  assert (R1 : RO c (eq Scheduled) s s1) by (apply O_comp; cbn; auto).
  assert (I1 : c_istat (comps s1 c) = Scheduled) by (unfold s1; rewrite comps_same; auto).
  match goal with |- wp (if ?b then _ else _) _ _ _ => destruct b end.
  - apply wp_ret. auto.
  - apply wp_bind. apply wp_put. set (s2 := m_comp c _ s1).
    assert (R2 : RO c (eq Scheduled) s s2).
    { eapply (RO_po c (eq Scheduled)); [exact R1|]. intros x. unfold s2. rewrite comps_m_comp. destruct (Nat.eqb_spec x c) as [->|]; cbn; auto. }
    apply wp_bind. apply wp_get.
    match goal with |- wp (if ?b then _ else _) _ _ _ => destruct b end; [|apply wp_raise; auto].
    apply wp_bind, wp_get.
    eapply wp_conseq; [apply (frames_wp _ _ _ s2 (o_resched c (eq Scheduled) _ p u (Some false))) | |]; cbv beta; intros ? s3 K; eapply (RO_po c (eq Scheduled)); eauto.
Qed.
Definition gives (o : op) (b : status) : Prop :=
  match o with
  | OCreate _ _ _ _ _ _ _ | OActivate _ _ _ _ _ _ _ _ _ | OResume _ _ _ _ | ORun _ _ _ _ => b = Scheduled
  | OHold _ _ _ _ i _ => b = if (i =? 0)%Z then Scheduled else Interrupted
  | OPassivate _ => b = Passive
  | OInterrupt _ => b = Interrupted
  | OStandby _ => b = Standby
  | OWait _ _ _ _ _ _ _ | OWaitFor _ _ _ _ _ _ _ => b = Waiting \/ b = Scheduled
  | _ => False
  end.
Lemma o_exec : forall n o s, quiet o = true -> EL s ->
  wp (exec n o) (fun _ s' => RO (match target s o with Some c => c | None => 0%nat end) (gives o) s s')
                (fun _ s' => RO (match target s o with Some c => c | None => 0%nat end) (gives o) s s') s.
Proof.
  intros n o s Q L.
  destruct o; try discriminate; cbn [exec target] in *;
    try (apply frames_wp; first [ apply o_create; reflexivity | apply o_activate; reflexivity | apply o_hold; reflexivity | apply o_passivate; reflexivity |
       apply o_interrupt; reflexivity | apply o_standby; reflexivity | apply o_set_remaining | apply o_wait; cbn; auto | apply o_wait_for; cbn; auto | apply o_run; reflexivity ]; fail).
  - destruct (steqb (c_status (comps s c)) Interrupted) eqn:E.
    + assert (ST : c_status (comps s c) = Interrupted) by (destruct (c_status (comps s c)); auto; discriminate).
      eapply wp_conseq; [apply (o_resume c all prio urgent s ST); apply (proj2 (L c)); auto | |]; cbv beta; intros ? s' K y;
        (destruct (K y) as [?|(? & ?)]; cbn [gives]; auto).
    + assert (ST : c_status (comps s c) <> Interrupted) by (intros K; rewrite K in E; discriminate).
      eapply wp_conseq; [apply (j_resume_no c all prio urgent s ST) | |]; cbv beta; intros ? s' ->; apply RO_po.
  - apply wp_setc. apply O_comp. cbn. auto.
  - apply wp_setc. apply O_comp. cbn. auto.
  - apply wp_put. apply O_same. reflexivity.
Qed.

(** ** A component that is in no line keeps its status unless it is called or becomes current *)
Lemma n_step : forall x n s, NQ x s ->
  wp (step n) (fun _ s' => cur s' <> x -> c_status (comps s' x) = c_status (comps s x)) (fun _ s' => cur s' <> x -> c_status (comps s' x) = c_status (comps s x)) s.
Proof.
  intros x n s N.
  set (G := fun (s1 s' : env) => cur s' = cur s1 /\ (cur s1 <> x -> Rx x s1 s')).
  assert (GO : preorder G).
  { constructor; unfold G; [intros; split; auto; intros; apply Rx_po|]. intros a b d (A1 & A2) (B1 & B2).
    split; [congruence|]. intros K. eapply (Rx_po x); [apply A2; auto | apply B2; congruence]. }
  assert (FC : forall c, frames (fun s1 s' => c = cur s1 -> G s1 s') (check_fail c)).
  { intros c z E. split; [apply t_check_fail|]. intros K. apply x_check_fail. congruence. }
  assert (FK : forall c, frames (fun s1 s' => c = cur s1 -> G s1 s') (continue n c)).
  { intros c z E. split; [apply t_continue|]. intros K. apply x_continue. congruence. }
  assert (FIN : forall s1 s', (cur s1 <> x -> NQ x s1 /\ comps s1 x = comps s x) -> G s1 s' -> cur s' <> x -> c_status (comps s' x) = c_status (comps s x)).
  { intros s1 s' A (B & D) K. assert (K1 : cur s1 <> x) by congruence. destruct (A K1) as (A1 & A2). destruct (D K1 A1) as (D1 & D2).
    rewrite <- A2. apply (keep_fields _ _ _ D2). }
  apply w_step.
  - intros c t SK PD ST.
    set (s1 := s_cur c (m_comp c (w_sched PInf) (m_comp c (w_status Current) (s_pend t s)))).
    assert (A : cur s1 <> x -> NQ x s1 /\ comps s1 x = comps s x).
    { intros K. cbn in K. split; [exact N|]. unfold s1. cbn [comps s_cur]. rewrite !comps_diff by auto. reflexivity. }
    split; [intros ->; apply FIN with (s1 := s1); auto; apply GO|]. intros _.
    eapply wp_conseq; [apply (frames_wp _ _ _ s1 (FK c)) | |]; cbv beta; intros ? s' K; apply FIN with (s1 := s1); auto.
  - intros D0.
    assert (SH : qs (shuffle (dropped s)) = qs s /\ comps (shuffle (dropped s)) = comps s).
    { assert (DR : qs (dropped s) = qs s /\ comps (dropped s) = comps s).
      { unfold dropped. destruct (c_skip (comps s (cur s))); auto. destruct (pend s); auto. }
      destruct DR as (A1 & A2). unfold shuffle. destruct (nonnil (stby (dropped s))); auto. }
    destruct SH as (S1 & S2).
    split.
    + intros e l' EP. cbv zeta. set (s1 := disp (e_c e) (taken e l' (shuffle (dropped s)))).
      assert (A : cur s1 <> x -> NQ x s1 /\ comps s1 x = comps s x).
      { intros K. cbn in K. split.
        - intros q Q M. apply (N q Q). unfold mem in *. cbn in M. rewrite S1 in M. auto.
        - unfold s1, disp, taken. rewrite !comps_diff by auto. cbn [comps s_cur s_now]. rewrite comps_diff by auto. cbn [comps s_evl]. rewrite S2. auto. }
      split.
      * intros _. apply FIN with (s1 := s1); auto. split; auto. intros _. apply x_same; auto.
      * intros _. apply wp_bind. eapply wp_conseq; [apply (frames_wp _ _ _ s1 (FC (e_c e))) | |]; cbv beta; intros ? s2 K2; specialize (K2 eq_refl).
        -- eapply wp_conseq; [apply (frames_wp _ _ _ s2 (FK (e_c e))) | |]; cbv beta; intros ? s3 K3; apply FIN with (s1 := s1); auto;
             (eapply GO; [exact K2 | apply K3; destruct K2 as (-> & _); reflexivity]).
        -- apply FIN with (s1 := s1); auto.
    + intros EV. set (s1 := s_running false (disp main (emptied (shuffle (dropped s))))).
      apply FIN with (s1 := s1); [|apply GO]. intros K.
      assert (K' : x <> main). { unfold s1, emptied in K. destruct (eoe (shuffle (dropped s))); cbn in K; congruence. }
      split.
      * intros q Q M. apply (N q Q). unfold mem in *. unfold s1, emptied in M. destruct (eoe (shuffle (dropped s))); cbn in M; rewrite S1 in M; auto.
      * unfold s1, disp, emptied. destruct (eoe (shuffle (dropped s))); cbn [comps s_running]; rewrite !comps_diff by auto; cbn [comps s_cur s_ended];
          rewrite !comps_diff by auto; rewrite S2; auto.
Qed.

(** a scheduler step: one component becomes current, others are at most honored *)
Definition RS (s1 s' : env) : Prop := cur s' = cur s1 /\ RJ 0 nost s1 s'.
Lemma j_step : forall n s,
  wp (step n) (fun _ s' => RJ (cur s') (eq Current) s s') (fun _ s' => RJ (cur s') (eq Current) s s') s.
Proof.
  intros n s.
  assert (FC : forall c, frames RS (check_fail c)).
  { intros c z. pose proof (t_check_fail c z) as H. pose proof (j_check_fail 0 nost c z) as K. destruct (check_fail c z) as [z' r]. split; [apply H | exact K]. }
  assert (FK : forall c, frames RS (continue n c)).
  { intros c z. pose proof (t_continue n c z) as H. pose proof (j_continue 0 nost n c z) as K. destruct (continue n c z) as [z' r]. split; [apply H | exact K]. }
  assert (PO : preorder RS).
  { constructor; unfold RS; [intros; split; auto; apply RJ_po|]. intros a b d (A1 & A2) (B1 & B2). split; [congruence | eapply (RJ_po 0 nost); eauto]. }
  assert (FIN : forall c s1 s', (forall x, x <> c -> c_status (comps s1 x) = c_status (comps s x)) -> c_status (comps s1 c) = Current -> cur s1 = c -> RS s1 s' -> RJ (cur s') (eq Current) s s').
  { intros c s1 s' A B C (D & F) x. rewrite D, C. destruct (Nat.eqb_spec x c) as [->|N].
    - destruct (F c) as [E|[E|(_ & [])]]; auto. right; right. split; auto. congruence.
    - rewrite <- (A x N). destruct (F x) as [E|[E|(_ & [])]]; auto. }
  assert (DI : forall c z x, x <> c -> c_status (comps (disp c z) x) = c_status (comps z x)).
  { intros c z x K. unfold disp. rewrite !comps_diff by auto. reflexivity. }
  apply w_step.
  - intros c t SK PD ST.
    set (s1 := s_cur c (m_comp c (w_sched PInf) (m_comp c (w_status Current) (s_pend t s)))).
    assert (A : forall x, x <> c -> c_status (comps s1 x) = c_status (comps s x)).
    { intros x K. unfold s1. cbn [comps s_cur]. rewrite !comps_diff by auto. reflexivity. }
    assert (B : c_status (comps s1 c) = Current) by (unfold s1; cbn [comps s_cur]; rewrite !comps_same; reflexivity).
    split; [intros _; apply FIN with (c := c) (s1 := s1); auto; apply PO|]. intros _.
    eapply wp_conseq; [apply (frames_wp _ _ _ s1 (FK c)) | |]; cbv beta; intros ? s' K; apply FIN with (c := c) (s1 := s1); auto.
  - intros D0.
    assert (S2 : comps (shuffle (dropped s)) = comps s) by (rewrite comps_shuffle, comps_dropped; auto).
    split.
    + intros e l' EP. cbv zeta. set (s1 := disp (e_c e) (taken e l' (shuffle (dropped s)))).
      assert (A : forall x, x <> e_c e -> c_status (comps s1 x) = c_status (comps s x)).
      { intros x K. unfold s1. rewrite DI by auto. unfold taken. cbn [comps s_now]. rewrite comps_diff by auto. cbn [comps s_evl]. rewrite S2. auto. }
      assert (B : c_status (comps s1 (e_c e)) = Current) by (unfold s1, disp; rewrite !comps_same; reflexivity).
      split.
      * intros _. apply FIN with (c := e_c e) (s1 := s1); auto. split; [reflexivity | apply J_same; reflexivity].
      * intros _. apply wp_bind. eapply wp_conseq; [apply (frames_wp _ _ _ s1 (FC (e_c e))) | |]; cbv beta; intros ? s2 K2.
        -- eapply wp_conseq; [apply (frames_wp _ _ _ s2 (FK (e_c e))) | |]; cbv beta; intros ? s3 K3; apply FIN with (c := e_c e) (s1 := s1); auto;
             (eapply PO; eauto).
        -- apply FIN with (c := e_c e) (s1 := s1); auto.
    + intros EV. set (s1 := s_running false (disp main (emptied (shuffle (dropped s))))).
      apply FIN with (c := main) (s1 := s1); [| |reflexivity |apply PO].
      * intros x K. unfold s1, emptied. destruct (eoe (shuffle (dropped s))); cbn [comps s_running]; rewrite DI by auto; cbn [comps s_ended]; rewrite !comps_diff by auto; rewrite S2; auto.
      * unfold s1. cbn [comps s_running]. unfold disp. rewrite !comps_same. reflexivity.
Qed.

(** ** Calls by and on a component that is in no line *)
Definition RN (x : nat) (s s' : env) : Prop := NQ x s -> NQ x s' /\ c_status (comps s' x) = c_status (comps s x).
Lemma RN_po : forall x, preorder (RN x).
Proof. constructor; unfold RN; [auto|]. intros a b c H K N. destruct (H N) as (H1 & H2). destruct (K H1). split; auto. congruence. Qed.
Lemma Rx_RN : forall x s s', Rx x s s' -> RN x s s'.
Proof. intros x s s' H N. destruct (H N) as (A & B). split; auto. apply (keep_fields _ _ _ B). Qed.
Lemma fr_RN : forall x A (m : M A), frames (Rx x) m -> frames (RN x) m.
Proof. intros x A m H s. specialize (H s). destruct (m s). apply Rx_RN. exact H. Qed.
Lemma n_comp : forall x c f s, (forall y, c_status (f y) = c_status y) -> RN x s (m_comp c f s).
Proof. intros x c f s H N. split; [exact N|]. rewrite comps_m_comp. destruct (Nat.eqb_spec x c) as [->|]; auto. Qed.
Lemma n_same : forall x s s', qs s' = qs s -> comps s' = comps s -> RN x s s'.
Proof. intros x s s' E1 E2 N. unfold NQ, mem in *. rewrite E1, E2. auto. Qed.
Lemma n_q_leave : forall x q c, frames (RN x) (q_leave q c). Proof. intros. apply fr_RN, x_q_leave. Qed.
Lemma n_remove : forall x c, frames (RN x) (remove c).
Proof.
  intros x c. unfold remove. pose proof (RN_po x) as PO. fgo PO;
    first [ apply n_same; reflexivity | intros N; split; [exact N | cbn; unfold upd; destruct (Nat.eqb_spec x c) as [->|]; reflexivity] ].
Qed.
Lemma n_check_fail : forall x c, frames (RN x) (check_fail c).
Proof.
  intros x c. unfold check_fail, leave_req. pose proof (RN_po x) as PO. fgo PO; auto using n_q_leave;
    first [ apply n_comp; reflexivity | apply n_same; reflexivity ].
Qed.
Lemma n_cancel : forall x n s, NQ x s ->
  wp (cancel n x) (fun _ s' => c_status (comps s' x) = Data) (fun _ s' => c_status (comps s' x) = c_status (comps s x)) s.
Proof.
  intros x n s N. unfold cancel. apply wp_bind. unfold stat. apply wp_get. destruct (steqb (c_status (comps s x)) Data) eqn:E.
  { apply wp_ret. destruct (c_status (comps s x)); auto; discriminate. }
  assert (F : frames (RN x) (when (negb (steqb (c_status (comps s x)) Current)) (remove x;;; check_fail x))).
  { pose proof (RN_po x) as PO. fgo PO; auto using n_remove, n_check_fail. }
  apply wp_bind. eapply wp_conseq; [apply (frames_wp _ _ _ s F) | |]; cbv beta; intros ? s1 K; destruct (K N) as (K1 & K2); auto.
  apply wp_bind, wp_get. apply wp_bind.
  assert (F2 : frames (RN x) (mfor (keys (c_claims (comps s1 x))) (fun r => release1 n x r None false))).
  { pose proof (RN_po x) as PO. fgo PO. apply fr_RN, x_release1. }
  eapply wp_conseq; [apply (frames_wp _ _ _ s1 F2) | |]; cbv beta; intros ? s2 K3; destruct (K3 K1) as (K4 & K5); [|congruence].
  apply wp_bind, wp_setc, wp_setc. rewrite comps_same. reflexivity.
Qed.
Lemma n_end : forall n s,
  wp (terminate n (cur s)) (fun _ s' => c_status (comps s' (cur s)) = Data) (fun _ _ => True) s.
Proof.
  intros n s. unfold terminate. apply wp_bind, wp_get. apply wp_bind.
  eapply wp_conseq with (Q := fun _ _ => True) (X := fun _ _ => True); [unfold wp; match goal with |- context [mfor ?a ?b s] => destruct (mfor a b s) as [? []] end; exact Logic.I | |]; auto. cbv beta. intros ? s1 _.
  apply wp_bind, wp_setc. apply wp_bind, wp_setc. apply wp_bind, wp_setc. apply wp_setc. rewrite !comps_same. reflexivity.
Qed.
Lemma n_filter : forall x n c f, frames (RN x) (set_filter n c f).
Proof.
  intros x n c f. unfold set_filter. pose proof (RN_po x) as PO. fgo PO; [apply n_comp; reflexivity|]. apply fr_RN, x_rescan.
Qed.

(** calls on data components, and interrupt of what is not scheduled, change no status *)
Definition shy (o : op) : bool :=
  match o with
  | OHold _ _ _ _ _ _ | OPassivate _ | OInterrupt _ | OStandby _ | ORequest _ _ _ _ _ _ _ | OWait _ _ _ _ _ _ _ | OWaitFor _ _ _ _ _ _ _
  | OFromStore _ _ _ _ _ _ _ _ _ | OToStore _ _ _ _ _ _ _ _ _ => true
  | _ => false
  end.
Lemma d_notdata : forall (P : env -> Prop) (A : Type) (k : M A) c (Q : A -> env -> Prop) s, c_status (comps s c) = Data -> P s ->
  wp (check_notdata c ;;; k) Q (fun _ => P) s.
Proof. intros P A k c Q s D H. apply wp_bind. unfold check_notdata. apply wp_bind. unfold stat. apply wp_get. rewrite D. apply wp_raise. auto. Qed.
Lemma d_exec : forall n o s x, shy o = true -> target s o = Some x -> c_status (comps s x) = Data ->
  wp (exec n o) (fun _ s' => c_status (comps s' x) = Data) (fun _ s' => c_status (comps s' x) = Data) s.
Proof.
  intros n o s x S T D. destruct o; try discriminate; cbn [exec target] in *; injection T as ->.
  - unfold hold. apply wp_bind. unfold stat. apply wp_get. rewrite D. cbn [steqb negb andb]; unfold when. apply wp_bind. apply (d_notdata (fun s' => c_status (comps s' x) = Data)); auto.
  - unfold passivate. apply wp_bind. unfold stat. apply wp_get. rewrite D. cbn [steqb negb andb]; unfold when. apply wp_bind. apply (d_notdata (fun s' => c_status (comps s' x) = Data)); auto.
  - unfold interrupt. apply wp_bind. unfold stat. apply wp_get. rewrite D. apply wp_raise. auto.
  - unfold standby. apply wp_bind. unfold stat. apply wp_get. rewrite D. cbn [steqb negb andb]; unfold when. apply wp_bind. apply (d_notdata (fun s' => c_status (comps s' x) = Data)); auto.
  - unfold request. apply wp_bind, wp_setc. apply wp_bind. unfold stat. apply wp_get. rewrite comps_same. cbn [w_oneof c_status]. rewrite D.
    cbn [steqb negb andb]; unfold when. apply wp_bind. apply (d_notdata (fun s' => c_status (comps s' x) = Data)); rewrite comps_same; auto.
  - unfold wait. apply wp_bind, wp_setc. apply wp_bind. unfold stat. apply wp_get. rewrite comps_same. cbn [w_cond c_status]. rewrite D.
    cbn [steqb negb andb]; unfold when. apply wp_bind. apply (d_notdata (fun s' => c_status (comps s' x) = Data)); rewrite comps_same; auto.
  - unfold wait_for. apply wp_bind. unfold stat. apply wp_get. rewrite D. cbn [steqb negb andb]; unfold when. apply wp_bind. apply (d_notdata (fun s' => c_status (comps s' x) = Data)); auto.
  - unfold from_store. apply wp_bind. unfold when; destruct (_ || _); [apply wp_raise; auto|]. apply wp_ret. apply wp_bind. unfold stat. apply wp_get. rewrite D. cbn [steqb negb andb]; unfold when. apply wp_bind. apply (d_notdata (fun s' => c_status (comps s' x) = Data)); auto.
  - unfold to_store. apply wp_bind. unfold when; destruct (_ || _); [apply wp_raise; auto|]. apply wp_ret. apply wp_bind. unfold stat. apply wp_get. rewrite D. cbn [steqb negb andb]; unfold when. apply wp_bind. apply (d_notdata (fun s' => c_status (comps s' x) = Data)); auto.
Qed.

(** who becomes current in a step is current after it *)
Lemma c_step : forall n s, QI s ->
  wp (step n) (fun _ s' => c_status (comps s' (cur s')) = Current) (fun _ _ => True) s.
Proof.
  intros n s QI0.
  assert (FK : forall c s1, NQ c s1 -> cur s1 = c -> c_status (comps s1 c) = Current ->
    wp (continue n c) (fun _ s' => c_status (comps s' (cur s')) = Current) (fun _ _ => True) s1).
  { intros c s1 N C ST. assert (F : frames (RN c) (continue n c)).
    { unfold continue. pose proof (RN_po c) as PO. fgo PO; [apply n_comp; reflexivity | apply fr_RN, x_r_try]. }
    eapply wp_conseq; [apply wp_and; [apply (frames_wp _ _ _ s1 F) | apply (frames_wp _ _ _ s1 (t_continue n c))] | |]; cbv beta; auto.
    intros _ s2 (A & B). destruct (A N) as (_ & A2). destruct B as (_ & B & _). rewrite B, C. congruence. }
  apply w_step.
  - intros c t SK PD ST. split; [auto|]. intros _. apply FK; auto.
    + assert (N : NQ c s).
      { apply QI_NQ; auto; [apply (proj1 (ki_l _ (qi_k _ QI0) c)); rewrite ST; auto with idle | apply (qi_r _ QI0); rewrite ST; auto with idle]. }
      exact N.
    + cbn [comps s_cur]. rewrite !comps_same. reflexivity.
  - intros D0.
    assert (SH : qs (shuffle (dropped s)) = qs s /\ comps (shuffle (dropped s)) = comps s).
    { assert (DR : qs (dropped s) = qs s /\ comps (dropped s) = comps s).
      { unfold dropped. destruct (c_skip (comps s (cur s))); auto. destruct (pend s); auto. }
      destruct DR as (A1 & A2). unfold shuffle. destruct (nonnil (stby (dropped s))); auto. }
    destruct SH as (S1 & S2).
    split.
    + intros e l' EP. cbv zeta. set (s1 := disp (e_c e) (taken e l' (shuffle (dropped s)))).
      assert (B : c_status (comps s1 (e_c e)) = Current) by (unfold s1, disp; rewrite !comps_same; reflexivity).
      split; [intros _; exact B|]. intros _.
      assert (G1 : GI KernelQ.none s1).
      { apply GI_eqv with (s := s); [| |apply (qi_g _ QI0)].
        - intros d. unfold s1, disp, taken. rewrite !comps_m_comp. destruct (Nat.eqb_spec d (e_c e)) as [->|];
            cbn [comps s_cur s_now]; rewrite comps_m_comp; [rewrite Nat.eqb_refl | destruct (Nat.eqb_spec d (e_c e)); [congruence|]]; cbn [comps s_evl]; rewrite S2; reflexivity.
        - cbn. exact S1. }
      apply wp_bind.
      eapply wp_conseq; [apply wp_and; [apply (w_check_fail_G KernelQ.none (e_c e) s1 (fun _ _ => True)); auto; intros q []
        | apply wp_and; [apply (w_check_fail_unr (e_c e) s1 (fun _ _ => True)); auto
        | apply wp_and; [apply (w_check_fail_noreq (e_c e) s1 (fun _ _ => True)); auto
        | apply wp_and; [apply (frames_wp _ _ _ s1 (t_check_fail (e_c e))) | apply (frames_wp _ _ _ s1 (o_check_fail (e_c e) nost))]]]] | |]; cbv beta; auto.
      intros _ s2 (G2 & (U1 & U2 & U3) & NR & (_ & C2 & _) & ST2). apply FK.
      * intros q R M. apply (gi_mem _ _ G2 q (e_c e)) in M; [|destruct q; auto; discriminate]. destruct M as (M & _). unfold noreq in NR.
        destruct q; cbn in M; try discriminate; rewrite ?NR, ?U1, ?U2, ?U3 in M; destruct M.
      * rewrite C2. reflexivity.
      * destruct (ST2 (e_c e)) as [->|(_ & [])]. exact B.
    + intros EV. unfold disp. cbn [cur s_running m_comp s_cur]. cbn [comps s_running]. 
      replace (cur (m_comp main (w_sched PInf) (m_comp main (w_status Current) (s_cur main (emptied (shuffle (dropped s))))))) with main by reflexivity.
      rewrite !comps_same. reflexivity.
Qed.
