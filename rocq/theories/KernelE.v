(** Event list invariant: every component has at most one pending event, not in the past, and its
    flags, scheduled time and status agree with it; sequence numbers are distinct. *)
From Coq Require Import QArith Lqa List Bool Arith ZArith Lia.
From Verif Require Import Base Kernel Wp.
Import ListNotations.
Open Scope Q_scope.

(** statuses of a component that may have a pending event *)
Definition schedst (st : status) : Prop := st = Scheduled \/ st = Requesting \/ st = Waiting.

Record EI (s : env) : Prop := {
  ei_now : forall e, In e (evl s) -> now s <= e_t e;
  ei_nd : NoDup (map e_c (evl s));
  ei_onev : forall c, c_onev (comps s c) = true <-> In c (map e_c (evl s));
  ei_sched : forall e, In e (evl s) -> c_sched (comps s (e_c e)) = Fin (e_t e);
  ei_stat : forall c, c_onev (comps s c) = true -> schedst (c_status (comps s c));
  ei_sq : (0 <= seq s)%Z;
  ei_snd : NoDup (map (fun e => Z.abs (e_seq e)) (evl s));
  ei_sb : forall e, In e (evl s) -> (0 < Z.abs (e_seq e) <= seq s)%Z }.

Definition Off (c : nat) (s : env) : Prop := c_onev (comps s c) = false.

Lemma EI_init : forall t0 R sv kc hp y d, EI (init t0 R sv kc hp y d).
Proof.
  intros.
  assert (F : forall c, c_onev (comps (init t0 R sv kc hp y d) c) = false).
  { intros c. cbn. unfold upd. destruct (Nat.eqb c main); reflexivity. }
  constructor; cbn [evl init now seq map In]; try tauto; try lia; try (constructor; fail).
  - intros c. rewrite F. split; [discriminate | tauto].
  - intros c. rewrite F. discriminate.
Qed.

(** ** States that agree on everything EI looks at *)
Definition Eeq (s s' : env) : Prop :=
  now s' = now s /\ seq s' = seq s /\ evl s' = evl s /\
  forall c, c_onev (comps s' c) = c_onev (comps s c) /\ c_sched (comps s' c) = c_sched (comps s c) /\
            c_status (comps s' c) = c_status (comps s c).

Lemma Eeq_po : preorder Eeq.
Proof.
  constructor.
  - intros s. repeat split; auto.
  - intros a b c (A1 & A2 & A3 & A4) (B1 & B2 & B3 & B4).
    repeat split; try congruence; destruct (A4 c0) as (?&?&?), (B4 c0) as (?&?&?); congruence.
Qed.
Lemma EI_Eeq : forall s s', EI s -> Eeq s s' -> EI s'.
Proof.
  intros s s' H (E1 & E2 & E3 & E4). destruct H. constructor; rewrite ?E1, ?E2, ?E3; auto.
  - intros c. destruct (E4 c) as (-> & _ & _). auto.
  - intros e He. destruct (E4 (e_c e)) as (_ & -> & _). auto.
  - intros c. destruct (E4 c) as (-> & _ & ->). auto.
Qed.
Lemma Off_Eeq : forall c s s', Off c s -> Eeq s s' -> Off c s'.
Proof. unfold Off. intros c s s' H (_ & _ & _ & E). destruct (E c) as (-> & _). auto. Qed.
Lemma stat_Eeq : forall c s s', Eeq s s' -> c_status (comps s' c) = c_status (comps s c).
Proof. intros c s s' (_ & _ & _ & E). apply E. Qed.

Ltac eeq := 
  repeat split; cbn; auto; intros;
  repeat match goal with |- context [upd _ ?c _ ?x] => unfold upd; destruct (Nat.eqb_spec x c); subst; cbn end; auto.

Lemma Eeq_m_comp : forall c f s,
  c_onev (f (comps s c)) = c_onev (comps s c) ->
  c_sched (f (comps s c)) = c_sched (comps s c) ->
  c_status (f (comps s c)) = c_status (comps s c) -> Eeq s (m_comp c f s).
Proof.
  intros. unfold m_comp, Eeq; cbn. repeat split; auto;
    unfold upd; destruct (Nat.eqb_spec c0 c); subst; auto.
Qed.
Lemma Eeq_m_rsc : forall r f s, Eeq s (m_rsc r f s). Proof. intros. eeq. Qed.
Lemma Eeq_m_q : forall r f s, Eeq s (m_q r f s). Proof. intros. eeq. Qed.

Ltac fe := fgo Eeq_po; try (apply Eeq_m_comp; reflexivity); try apply Eeq_m_rsc; try apply Eeq_m_q;
  try (solve [eeq]).

Lemma e_q_enter : forall q c p, frames Eeq (q_enter q c p). Proof. intros. unfold q_enter. fe. Qed.
Lemma e_q_leave : forall q c, frames Eeq (q_leave q c). Proof. intros. unfold q_leave. fe. Qed.
Lemma e_q_prio : forall q c, frames Eeq (q_prio q c). Proof. intros. unfold q_prio. fe. Qed.
Lemma e_leave_req : forall c r, frames Eeq (leave_req c r).
Proof. intros. unfold leave_req. fe. apply e_q_leave. Qed.
Lemma e_check_fail : forall c, frames Eeq (check_fail c).
Proof. intros. unfold check_fail. fe; auto using e_leave_req, e_q_leave. Qed.
Lemma e_check_notdata : forall c, frames Eeq (check_notdata c). Proof. intros. unfold check_notdata. fe. Qed.
Lemma e_check_notmain : forall c, frames Eeq (check_notmain c). Proof. intros. unfold check_notmain. fe. Qed.
Lemma e_honor_one : forall c r q, frames Eeq (honor_one c r q).
Proof. intros. unfold honor_one. fe; auto using e_q_prio. Qed.
Lemma e_honor_all_from : forall c rq, frames Eeq (honor_all_from c rq).
Proof. induction rq as [|[r q] t IH]; cbn; fe; auto using e_honor_one. Qed.
Lemma e_honor_any_from : forall c rq, frames Eeq (honor_any_from c rq).
Proof. induction rq as [|[r q] t IH]; cbn; fe; auto using e_honor_one. Qed.
Lemma e_honor_all : forall c, frames Eeq (honor_all c).
Proof. intros. unfold honor_all. fe; auto using e_honor_all_from. Qed.
Lemma e_honor_any : forall c, frames Eeq (honor_any c).
Proof. intros. unfold honor_any. fe; auto using e_honor_any_from. Qed.
Lemma e_claim : forall c r q, frames Eeq (claim c r q).
Proof. intros. unfold claim. fe; auto using e_q_prio, e_q_enter. Qed.
Lemma e_fail_time : forall sp, frames Eeq (fail_time sp). Proof. intros. unfold fail_time. fe. Qed.
Lemma e_release1_bumped : forall n c r q, frames Eeq (release1 n c r q true).
Proof. intros. unfold release1. cbn [negb when]. fe; auto using e_q_leave. Qed.
Lemma e_leave_wait : forall c st, frames Eeq (leave_wait c st).
Proof. intros. unfold leave_wait. fe; auto using e_q_leave. Qed.
Lemma e_wait1 : forall c a, frames Eeq (wait1 c a).
Proof. intros. unfold wait1. destruct a as [[st f] p]. fe; auto using e_q_enter. Qed.
Lemma e_leave_from : forall d, frames Eeq (leave_from d).
Proof. intros. unfold leave_from. fe; auto using e_q_leave. Qed.
Lemma e_leave_to : forall d, frames Eeq (leave_to d).
Proof. intros. unfold leave_to. fe; auto using e_q_leave. Qed.
Lemma e_set_kmav : forall k v, frames Eeq (set_kmav k v).
Proof. intros. unfold set_kmav. fe. Qed.

(** ** The updates that matter *)
Lemma EI_off_not : forall s c, EI s -> Off c s -> ~ In c (map e_c (evl s)).
Proof.
  intros s c H O C. apply (ei_onev _ H) in C. unfold Off in O. congruence.
Qed.
Lemma EI_stat_off : forall s c, EI s -> ~ schedst (c_status (comps s c)) -> Off c s.
Proof.
  intros s c H N. unfold Off. destruct (c_onev (comps s c)) eqn:E; auto.
  exfalso. apply N. apply (ei_stat _ H). auto.
Qed.
(** a component without event may change arbitrarily, as long as it stays off the list *)
Lemma EI_off_upd : forall s c f, EI s -> Off c s -> c_onev (f (comps s c)) = false -> EI (m_comp c f s).
Proof.
  intros s c f H O F. pose proof (EI_off_not _ _ H O) as NI. destruct H.
  constructor; try exact ei_now0; try exact ei_nd0; try exact ei_sq0; try exact ei_snd0; try exact ei_sb0.
  - intros x. rewrite comps_m_comp. destruct (Nat.eqb_spec x c); subst; cbn [evl m_comp s_comps]; auto.
    rewrite F. split; [discriminate | tauto].
  - intros e He. rewrite comps_m_comp. destruct (Nat.eqb_spec (e_c e) c); subst; auto.
    exfalso. apply NI. apply in_map. exact He.
  - intros x. rewrite comps_m_comp. destruct (Nat.eqb_spec x c); subst; auto.
    rewrite F. discriminate.
Qed.
Lemma Off_same : forall c f s, c_onev (f (comps s c)) = c_onev (comps s c) -> Off c s -> Off c (m_comp c f s).
Proof. unfold Off. intros. rewrite comps_same. congruence. Qed.

Lemma ev_del_some : forall c l l', ev_del c l = Some l' ->
  exists l1 e l2, l = l1 ++ e :: l2 /\ e_c e = c /\ l' = l1 ++ l2.
Proof.
  induction l as [|e t IH]; cbn; intros l' H; [discriminate|].
  destruct (Nat.eqb_spec (e_c e) c).
  - inversion H; subst. exists [], e, l'. auto.
  - destruct (ev_del c t) as [t'|]; [|discriminate]. inversion H; subst.
    destruct (IH _ eq_refl) as (l1 & e' & l2 & -> & <- & ->).
    exists (e :: l1), e', l2. auto.
Qed.
Lemma ev_del_none : forall c l, ev_del c l = None -> ~ In c (map e_c l).
Proof.
  induction l as [|e t IH]; cbn; intros H; [tauto|].
  destruct (Nat.eqb_spec (e_c e) c); [discriminate|].
  destruct (ev_del c t); [discriminate|]. intuition.
Qed.

Lemma EI_del : forall s l1 e l2, EI s -> evl s = l1 ++ e :: l2 ->
  EI (m_comp (e_c e) (w_onev false) (s_evl (l1 ++ l2) s)).
Proof.
  intros s l1 e l2 H E. destruct H. rewrite E in *.
  assert (I : forall x, In x (l1 ++ l2) -> In x (l1 ++ e :: l2)).
  { intros x. rewrite !in_app_iff. cbn. tauto. }
  assert (ND : ~ In (e_c e) (map e_c (l1 ++ l2))).
  { rewrite map_app in *. cbn in *. apply NoDup_remove_2 in ei_nd0. exact ei_nd0. }
  constructor; cbn [evl now seq m_comp s_comps s_evl]; auto.
  - rewrite map_app in *. cbn in *. eapply NoDup_remove_1; eauto.
  - intros c. rewrite comps_m_comp. destruct (Nat.eqb_spec c (e_c e)).
    + subst. cbn. split; [discriminate | tauto].
    + cbn. rewrite ei_onev0. rewrite !map_app, !in_app_iff. cbn. intuition; subst; tauto.
  - intros x Hx. rewrite comps_m_comp. destruct (Nat.eqb_spec (e_c x) (e_c e)) as [Q|].
    + exfalso. apply ND. rewrite <- Q. apply in_map. auto.
    + cbn. auto.
  - intros c. rewrite comps_m_comp. destruct (Nat.eqb_spec c (e_c e)); cbn; auto. discriminate.
  - rewrite map_app in *. cbn in *. eapply NoDup_remove_1; eauto.
Qed.

Lemma w_remove : forall c s (Q : unit -> env -> Prop) X, EI s ->
  (forall s', EI s' -> Off c s' -> c_status (comps s' c) = c_status (comps s c) -> now s' = now s ->
     Q tt s') ->
  wp (remove c) Q X s.
Proof.
  intros c s Q X H K. unfold remove. wgo.
  - apply ev_del_some in Heqo. destruct Heqo as (l1 & e & l2 & E & <- & ->).
    apply K; auto.
    + apply EI_del; auto.
    + unfold Off. rewrite comps_same. reflexivity.
    + rewrite comps_same. reflexivity.
  - exfalso. apply ev_del_none in Heqo. apply Heqo. apply (ei_onev _ H). auto.
  - apply K; auto. eapply EI_Eeq; [exact H | eeq].
  - apply K; auto.
Qed.

Lemma EI_push : forall s c t p (u : bool), EI s -> Off c s -> c_sched (comps s c) = Fin t -> now s <= t ->
  schedst (c_status (comps s c)) ->
  EI (s_evl (evl s ++ [mkEv t p (if u then (- (seq s + 1))%Z else (seq s + 1)%Z) c])
            (m_comp c (w_onev true) (s_seq (seq s + 1)%Z s))).
Proof.
  intros s c t p u H O S N T. pose proof (EI_off_not _ _ H O) as NI. destruct H.
  set (n := if u then (- (seq s + 1))%Z else (seq s + 1)%Z).
  assert (An : Z.abs n = (seq s + 1)%Z) by (subst n; destruct u; lia).
  constructor; cbn [evl now seq m_comp s_comps s_evl s_seq].
  - intros e He. apply in_app_iff in He. destruct He as [He | [<- | []]]; cbn; auto.
  - rewrite map_app. cbn. apply NoDup_Add with (a := c) (l := map e_c (evl s)); auto.
    rewrite <- (app_nil_r (map e_c (evl s))) at 1. apply Add_app.
  - intros x. rewrite map_app, in_app_iff. cbn. unfold upd. destruct (Nat.eqb_spec x c); subst; cbn.
    + tauto.
    + rewrite ei_onev0. intuition congruence.
  - intros e He. apply in_app_iff in He. destruct He as [He | [<- | []]]; cbn; unfold upd.
    + destruct (Nat.eqb_spec (e_c e) c); cbn; auto. subst. auto.
    + rewrite Nat.eqb_refl. cbn. auto.
  - intros x. cbn. unfold upd. destruct (Nat.eqb_spec x c); subst; cbn; auto.
  - lia.
  - rewrite map_app. cbn. rewrite An.
    apply NoDup_Add with (a := (seq s + 1)%Z) (l := map (fun e => Z.abs (e_seq e)) (evl s)).
    + rewrite <- (app_nil_r (map _ (evl s))) at 1. apply Add_app.
    + split; auto. intro C. apply in_map_iff in C. destruct C as (e & C1 & C2).
      apply ei_sb0 in C2. lia.
  - intros e He. apply in_app_iff in He. destruct He as [He | [<- | []]]; cbn.
    + apply ei_sb0 in He. lia.
    + rewrite An. lia.
Qed.

Lemma w_push : forall c t p u s, EI s -> Off c s -> c_sched (comps s c) = t -> xle (Fin (now s)) t ->
  schedst (c_status (comps s c)) ->
  wp (push c t p u) (fun _ s' => EI s') (fun _ s' => EI s') s.
Proof.
  intros c [t|] p u s H O S N T; unfold push; wgo; auto.
  cbn [seq s_seq m_comp s_comps evl]. apply (EI_push s c t p u); auto.
Qed.

Lemma w_resched : forall c t p u cap s, EI s -> Off c s -> schedst (c_status (comps s c)) ->
  wp (reschedule c t p u cap) (fun _ s' => EI s') (fun _ s' => EI s') s.
Proof.
  intros c t p u cap s H O T. unfold reschedule. 
  assert (K : forall t', xle (Fin (now s)) t' ->
            wp (setc c (w_sched t') ;;; push c t' p u) (fun _ s' => EI s') (fun _ s' => EI s') s).
  { intros t' L. wgo. apply w_push; auto.
    - apply EI_off_upd; auto.
    - apply Off_same; auto.
    - rewrite comps_same. reflexivity.
    - rewrite comps_same. exact T. }
  apply wp_bind, wp_get. destruct (xltb t (Fin (now s))) eqn:E.
  - apply wp_bind. wgo; auto. apply K. apply xle_refl.
  - apply wp_bind, wp_ret. apply K. apply xltb_false_iff. auto.
Qed.

(** EI-preservation as a frame relation *)
Definition RE (s s' : env) : Prop := EI s -> EI s'.
Lemma RE_po : preorder RE.
Proof. constructor; unfold RE; auto. Qed.
Lemma RE_of_Eeq : forall A (m : M A), frames Eeq m -> frames RE m.
Proof. intros A m H s K. eapply EI_Eeq; eauto. Qed.

(** wp for an Eeq-framed program *)
Lemma w_eeq : forall A (m : M A) (Q : A -> env -> Prop) s,
  frames Eeq m -> EI s -> (forall a s', Eeq s s' -> EI s' -> Q a s') ->
  wp m Q (fun _ s' => EI s') s.
Proof.
  intros A m Q s F H K.
  eapply wp_conseq; [apply (frames_wp _ Eeq m s F) | |]; cbn; intros.
  - apply K; auto. eapply EI_Eeq; eauto.
  - eapply EI_Eeq; eauto.
Qed.
(** wp for an RE-framed program *)
Lemma w_re : forall A (m : M A) (Q : A -> env -> Prop) s,
  frames RE m -> EI s -> (forall a s', EI s' -> Q a s') ->
  wp m Q (fun _ s' => EI s') s.
Proof.
  intros A m Q s F H K.
  eapply wp_conseq; [apply (frames_wp _ RE m s F) | |]; unfold RE; cbn; intros; auto.
Qed.
Lemma RE_intro : forall A (m : M A),
  (forall s, EI s -> wp m (fun _ s' => EI s') (fun _ s' => EI s') s) -> frames RE m.
Proof. intros A m H s K. apply wp_fst. auto. Qed.

#[export] Hint Resolve e_q_enter e_q_leave e_q_prio e_leave_req e_check_fail e_check_notdata e_check_notmain
  e_honor_all e_honor_any e_claim e_fail_time e_release1_bumped e_leave_wait e_wait1 e_leave_from
  e_leave_to e_set_kmav : eeq.

Lemma schedst_sch : schedst Scheduled. Proof. left; auto. Qed.
Lemma schedst_req : schedst Requesting. Proof. right; left; auto. Qed.
Lemma schedst_wai : schedst Waiting. Proof. right; right; auto. Qed.
#[export] Hint Resolve schedst_sch schedst_req schedst_wai : eeq.
Lemma not_schedst_cur : ~ schedst Current. Proof. intros [|[|]]; discriminate. Qed.
Lemma not_schedst_pas : ~ schedst Passive. Proof. intros [|[|]]; discriminate. Qed.
Lemma not_schedst_int : ~ schedst Interrupted. Proof. intros [|[|]]; discriminate. Qed.
Lemma not_schedst_std : ~ schedst Standby. Proof. intros [|[|]]; discriminate. Qed.
Lemma not_schedst_dat : ~ schedst Data. Proof. intros [|[|]]; discriminate. Qed.

(** the block  remove c; status := scheduled; reschedule  *)
Lemma status_resched : forall c st t p u cap s, EI s -> Off c s -> schedst st ->
  wp (reschedule c t p u cap) (fun _ s' => EI s') (fun _ s' => EI s') (m_comp c (w_status st) s).
Proof.
  intros. apply w_resched.
  - apply EI_off_upd; auto.
  - apply Off_same; auto.
  - rewrite comps_same. auto.
Qed.

(** ** Function by function *)
Lemma re_remove : forall c, frames RE (remove c).
Proof. intros. apply RE_intro. intros. apply w_remove; auto. Qed.

Ltac wcall F := eapply wp_conseq; [apply F | cbv beta | cbv beta; auto].

Lemma re_activate : forall c a d p u pr kr kw cap, frames RE (activate c a d p u pr kr kw cap).
Proof.
  intros. apply RE_intro. intros s H. unfold activate.
  assert (T : forall s', EI s' -> Off c s' ->
    wp (t <- get (fun s => match a with
                     | None => xadd (Fin (now s)) d
                     | Some a => xadd (xaddq a (off s)) d
                     end) ;;
        setc c (w_status Scheduled) ;;; reschedule c t p u cap) (fun _ s' => EI s') (fun _ s' => EI s') s').
  { intros. wgo. apply status_resched; auto with eeq. }
  set (tail := (t <- get _ ;; _)) in *. clearbody tail.
  apply wp_bind, wp_stat. cbv zeta. apply wp_bind, wp_get. apply wp_bind. apply wp_when; [intros; apply wp_raise; auto | intros _].
  set (st := c_status (comps s c)).
  apply wp_bind. apply wp_when; intros _; [apply wp_setc |].
  1: set (s1 := m_comp c (w_retry []) s);
     assert (E : Eeq s s1) by (apply Eeq_m_comp; reflexivity).
  2: set (s1 := s); assert (E : Eeq s s1) by apply (po_refl _ Eeq_po).
  all: clearbody s1; pose proof (EI_Eeq _ _ H E) as H1;
    pose proof (stat_Eeq c _ _ E) as St; fold st in St; rewrite <- St;
    apply wp_bind; apply wp_when; intros C;
    [ apply wp_bind; apply w_remove; auto; intros s2 H2 O2 S2 _;
      apply wp_when; intros;
      [ apply w_eeq; auto with eeq; intros _ s3 E3 H3; apply T; auto; eapply Off_Eeq; eauto
      | apply T; auto ]
    | apply T; auto; apply EI_stat_off; auto;
      apply negb_false_iff, steqb_iff in C; rewrite C; apply not_schedst_cur ].
Qed.

Lemma re_hold : forall c sp p u i cap, frames RE (hold c sp p u i cap).
Proof.
  intros. apply RE_intro. intros s H. unfold hold.
  apply wp_bind, wp_stat. apply wp_bind.
  assert (T : forall s', EI s' -> Off c s' -> forall t,
    wp (if negb (i =? 0)%Z then
          n <- get now ;; setc c (w_rem (xsubq t n)) ;;; setc c (w_istat Scheduled) ;;;
          setc c (w_ilevel i) ;;; setc c (w_status Interrupted)
        else setc c (w_status Scheduled) ;;; reschedule c t p u cap)
    (fun _ s' => EI s') (fun _ s' => EI s') s').
  { intros s' H' O' t. wgo.
    - repeat (apply EI_off_upd || apply Off_same); auto; rewrite ?comps_same; auto.
    - apply status_resched; auto with eeq. }
  assert (K : forall s', EI s' -> Off c s' ->
    wp (t <- match sp with
         | SNone => get (fun s => Fin (now s))
         | SDur d => get (fun s => xadd (Fin (now s)) d)
         | STill t => get (fun s => xaddq t (off s))
         | SBoth => raise ValueErr
         end ;;
        past <- get (fun s => xltb t (Fin (now s))) ;;
        t' <- (if past then
           b <- get (capped cap) ;;
           (if b then get (fun s => Fin (now s)) else raise ValueErr)
         else ret t) ;;
        if negb (i =? 0)%Z then
          n <- get now ;; setc c (w_rem (xsubq t' n)) ;;; setc c (w_istat Scheduled) ;;;
          setc c (w_ilevel i) ;;; setc c (w_status Interrupted)
        else setc c (w_status Scheduled) ;;; reschedule c t' p u cap)
    (fun _ s' => EI s') (fun _ s' => EI s') s').
  { intros s' H' O'. apply wp_bind.
    destruct sp; [apply wp_get | apply wp_get | apply wp_get | apply wp_raise; auto];
    (apply wp_bind, wp_get; apply wp_bind; apply wp_if; intros _;
     [ apply wp_bind, wp_get, wp_if; intros _; [apply wp_get | apply wp_raise]; auto
     | apply wp_ret; auto ]). }
  apply wp_when; intros C.
  - apply wp_bind. apply w_eeq; auto with eeq. intros _ s1 E1 H1.
    apply wp_bind. apply w_remove; auto. intros s2 H2 O2 _ _.
    apply w_eeq; auto with eeq. intros _ s3 E3 H3. apply K; auto. eapply Off_Eeq; eauto.
  - apply K; auto. apply EI_stat_off; auto.
    apply andb_false_iff in C. destruct C as [C|C]; apply negb_false_iff, steqb_iff in C; rewrite C;
      [apply not_schedst_pas | apply not_schedst_cur].
Qed.

Lemma re_passivate : forall c, frames RE (passivate c).
Proof.
  intros. apply RE_intro. intros s H. unfold passivate.
  apply wp_bind, wp_stat. apply wp_bind.
  assert (T : forall s', EI s' -> Off c s' ->
    wp (setc c (w_sched PInf) ;;; setc c (w_status Passive)) (fun _ s' => EI s') (fun _ s' => EI s') s').
  { intros. wgo. repeat (apply EI_off_upd || apply Off_same); auto; rewrite ?comps_same; auto. }
  apply wp_if; intros C.
  - apply wp_setc. apply steqb_iff in C.
    assert (O : Off c s) by (apply EI_stat_off; auto; rewrite C; apply not_schedst_cur).
    apply T; [apply EI_off_upd | apply Off_same]; auto.
  - apply wp_bind. apply w_eeq; auto with eeq. intros _ s1 E1 H1.
    apply wp_bind. apply w_remove; auto. intros s2 H2 O2 _ _.
    apply wp_bind. apply w_eeq; auto with eeq. intros _ s3 E3 H3.
    apply wp_bind, wp_get. apply wp_setc.
    assert (O3 : Off c s3) by (eapply Off_Eeq; eauto).
    apply T; [apply EI_off_upd | apply Off_same]; auto.
Qed.

Lemma re_interrupt : forall c, frames RE (interrupt c).
Proof.
  intros. apply RE_intro. intros s H. unfold interrupt.
  apply wp_bind, wp_stat. apply wp_if; intros C1; [apply wp_raise; auto|].
  apply wp_if; intros C2.
  - apply wp_setc. eapply EI_Eeq; [exact H | apply Eeq_m_comp; reflexivity].
  - apply wp_bind. apply w_eeq; auto with eeq. intros _ s1 E1 H1.
    apply wp_bind. apply w_remove; auto. intros s2 H2 O2 _ _. wgo.
    repeat (apply EI_off_upd || apply Off_same); auto; rewrite ?comps_same; auto.
Qed.

Lemma re_resume : forall c a p u, frames RE (resume c a p u).
Proof.
  intros. apply RE_intro. intros s H. unfold resume.
  apply wp_bind, wp_stat. apply wp_if; intros C1; [|apply wp_raise; auto].
  apply steqb_iff in C1.
  assert (O : Off c s) by (apply EI_stat_off; auto; rewrite C1; apply not_schedst_int).
  apply wp_bind, wp_setc. apply wp_bind, wp_get.
  match goal with |- wp _ _ _ ?s1 => set (s1' := s1) end.
  assert (H1 : EI s1') by (apply EI_off_upd; auto).
  assert (O1 : Off c s1') by (apply Off_same; auto). clearbody s1'.
  apply wp_if; intros C2; [apply wp_ret; auto|].
  apply wp_bind, wp_setc. apply wp_bind, wp_stat.
  match goal with |- wp _ _ _ ?s1 => set (s2 := s1) end.
  assert (H2 : EI s2) by (apply EI_off_upd; auto).
  assert (O2 : Off c s2) by (apply Off_same; auto). clearbody s2.
  apply wp_if; intros C3; [|apply wp_raise; auto].
  apply steqb_iff in C3. apply wp_bind, wp_get. apply w_resched; auto. rewrite C3. auto with eeq.
Qed.

Lemma re_standby : forall c, frames RE (standby c).
Proof.
  intros. apply RE_intro. intros s H. unfold standby.
  apply wp_bind, wp_stat. apply wp_bind.
  assert (T : forall s', EI s' -> Off c s' ->
    wp (n <- get now ;; setc c (w_sched (Fin n)) ;;; put (fun s => s_stby (stby s ++ [c]) s) ;;;
        setc c (w_status Standby)) (fun _ s' => EI s') (fun _ s' => EI s') s').
  { intros s' H' O'. wgo. apply EI_off_upd.
    - apply EI_Eeq with (s := m_comp c (w_sched (Fin (now s'))) s'); [apply EI_off_upd; auto | eeq].
    - unfold Off. cbn. unfold upd. rewrite Nat.eqb_refl. exact O'.
    - cbn. unfold upd. rewrite Nat.eqb_refl. exact O'. }
  apply wp_when; intros C.
  - apply wp_bind. apply w_eeq; auto with eeq. intros _ s1 E1 H1.
    apply wp_bind. apply w_eeq; auto with eeq. intros _ s1' E1' H1'.
    apply wp_bind. apply w_remove; auto. intros s2 H2 O2 _ _.
    apply w_eeq; auto with eeq. intros _ s3 E3 H3. apply T; auto. eapply Off_Eeq; eauto.
  - apply T; auto. apply EI_stat_off; auto. apply negb_false_iff, steqb_iff in C. rewrite C. apply not_schedst_cur.
Qed.

Lemma re_set_remaining : forall c v p u s, EI s -> c_status (comps s c) <> Data ->
  wp (set_remaining c v p u) (fun _ s' => EI s') (fun _ s' => EI s') s.
Proof.
  intros c v p u s H ND. unfold set_remaining. apply wp_bind, wp_stat.
  apply wp_if; intros C1.
  { apply wp_setc. eapply EI_Eeq; [exact H | apply Eeq_m_comp; reflexivity]. }
  apply wp_if; intros C2; [apply wp_raise; auto|].
  apply wp_if; intros C3; [apply wp_raise; auto|].
  apply wp_bind. apply w_remove; auto. intros s2 H2 O2 S2 _. apply wp_bind, wp_get.
  apply w_resched; auto. rewrite S2.
  apply orb_false_iff in C1. destruct C1 as [C1 C1'].
  unfold schedst. destruct (c_status (comps s c)); cbn in *; try discriminate; auto; congruence.
Qed.

Lemma re_create : forall c a d p u sk cap s, EI s -> Off c s ->
  wp (create c a d p u sk cap) (fun _ s' => EI s') (fun _ s' => EI s') s.
Proof.
  intros c a d p u sk cap s H O. unfold create. wgo.
  apply status_resched; auto with eeq; [apply EI_off_upd | apply Off_same]; auto.
Qed.

(** *** resources *)
Lemma re_c_try : forall rt c, (forall r, frames RE (rt r)) -> frames RE (c_try rt c).
Proof.
  intros rt c Hrt. apply RE_intro. intros s H. unfold c_try.
  apply wp_bind, wp_stat. apply wp_if; intros C1; [apply wp_ret; auto|].
  apply wp_bind, wp_get. apply wp_bind. 
  apply w_eeq; auto. { fgo Eeq_po; auto with eeq. } intros rh s1 E1 H1.
  destruct rh as [|r0 rh]; [apply wp_ret; auto|].
  apply wp_bind, wp_get. apply wp_bind, wp_get. apply wp_bind.
  apply w_eeq; auto. { fgo Eeq_po; auto with eeq. } intros _ s2 E2 H2.
  apply wp_bind, wp_setc. apply wp_bind. apply w_remove.
  { eapply EI_Eeq; [exact H2 | apply Eeq_m_comp; reflexivity]. }
  intros s3 H3 O3 _ _. apply wp_bind, wp_setc. apply wp_bind, wp_get.
  apply wp_bind. wcall status_resched; auto with eeq. intros _ s4 H4.
  apply wp_bind, wp_get. apply wp_bind. apply wp_if; intros C.
  - apply wp_setc. apply wp_ret. eapply EI_Eeq; [exact H4 | apply Eeq_m_comp; reflexivity].
  - apply w_re; auto. { apply (fr_mfor _ RE_po). auto. }
Qed.

Lemma re_rloop : forall ct r an first p1, (forall c, frames RE (ct c)) ->
  forall n mx, frames RE (rloop ct n r an first p1 mx).
Proof. induction n; intros mx; cbn; destruct mx as [[c p]|]; fgo RE_po; auto. Qed.

Ltac re_eq := unfold RE; intros; eapply EI_Eeq; [eassumption | first [apply Eeq_m_rsc | apply Eeq_m_q | apply Eeq_m_comp; reflexivity | eeq]].

Lemma re_r_try : forall n r, frames RE (r_try n r).
Proof.
  induction n; intros; cbn; fgo RE_po; try re_eq; auto; apply re_rloop; intros; apply re_c_try; auto.
Qed.
Lemma re_release1 : forall n c r q b, frames RE (release1 n c r q b).
Proof.
  intros. unfold release1. fgo RE_po; try re_eq; auto using re_r_try.
  apply RE_of_Eeq; auto with eeq.
Qed.
Lemma re_release : forall n c a, frames RE (release n c a).
Proof. intros. unfold release. fgo RE_po; auto using re_release1. Qed.
Lemma re_release_claimers : forall f n r mx, frames RE (release_claimers f n r mx).
Proof. induction n; intros r mx; cbn [release_claimers]; destruct mx as [[c p]|]; fgo RE_po; auto using re_release. Qed.
Lemma re_res_release : forall n r q, frames RE (res_release n r q).
Proof. intros. unfold res_release. fgo RE_po; try re_eq; auto using re_r_try, re_release_claimers. Qed.
Lemma re_set_cap : forall n r q, frames RE (set_cap n r q).
Proof. intros. unfold set_cap. fgo RE_po; try re_eq; auto using re_r_try. Qed.

(** status of c: not one of those with an event; kept by retries as long as c has no request *)
Definition noreq (c : nat) (s : env) := c_requests (comps s c) = [].
Definition Rnoreq (c : nat) (s s' : env) := noreq c s -> noreq c s'.
Lemma Rnoreq_po : forall c, preorder (Rnoreq c). Proof. constructor; unfold Rnoreq; auto. Qed.
Ltac nr := unfold Rnoreq, noreq; intros; rewrite ?comps_m_comp; 
  try match goal with |- context [Nat.eqb ?x ?y] => destruct (Nat.eqb_spec x y); subst end; cbn; auto.

Lemma nr_c_try : forall c0 rt c, (forall r, frames (Rnoreq c0) (rt r)) -> frames (Rnoreq c0) (c_try rt c).
Proof.
  intros c0 rt c Hrt. pose proof (Rnoreq_po c0) as PO.
  unfold c_try, claim, leave_req, q_leave, q_enter, q_prio, remove, reschedule, push.
  fgo PO; auto; try (solve [nr]); [apply (g_honor_any _ PO) | apply (g_honor_all _ PO)].
Qed.
Lemma nr_r_try : forall c0 n r, frames (Rnoreq c0) (r_try n r).
Proof.
  intros c0. pose proof (Rnoreq_po c0) as PO. induction n; intros; cbn; fgo PO; auto; try (solve [nr]).
  all: apply (g_rloop _ PO); intros; apply nr_c_try; auto.
Qed.

(** after an unsuccessful c_try nothing has changed; after a successful one c has no requests *)
Lemma w_c_try : forall n c s, EI s -> Off c s ->
  wp (c_try (r_try n) c) (fun _ s' => EI s' /\ (noreq c s' \/ Off c s')) (fun _ s' => EI s') s.
Proof.
  intros n c s H O. unfold c_try.
  apply wp_bind, wp_stat. apply wp_if; intros C1; [apply wp_ret; auto|].
  apply wp_bind, wp_get. apply wp_bind. 
  apply w_eeq; auto. { fgo Eeq_po; auto with eeq. } intros rh s1 E1 H1.
  pose proof (Off_Eeq _ _ _ O E1) as O1.
  destruct rh as [|r0 rh]; [apply wp_ret; auto|].
  apply wp_bind, wp_get. apply wp_bind, wp_get. apply wp_bind.
  apply w_eeq; auto. { fgo Eeq_po; auto with eeq. } intros _ s2 E2 H2.
  apply wp_bind, wp_setc.
  match goal with |- wp _ _ _ ?s1 => set (s2' := s1) end.
  assert (N2 : noreq c s2') by (unfold noreq, s2'; rewrite comps_same; reflexivity).
  assert (H2' : EI s2') by (eapply EI_Eeq; [exact H2 | apply Eeq_m_comp; reflexivity]).
  clearbody s2'.
  apply wp_bind.
  pose proof (Rnoreq_po c) as PO.
  assert (NR : frames (Rnoreq c) (remove c)).
  { unfold remove. fgo PO; try (solve [nr]). }
  assert (W : wp (remove c) (fun _ s' => (EI s' /\ Off c s') /\ noreq c s') (fun _ s' => EI s' /\ True) s2').
  { eapply wp_conseq; [apply wp_and;
      [apply w_remove with (Q := fun _ s' => EI s' /\ Off c s') (X := fun _ s' => EI s'); auto
      | apply (frames_wp _ _ _ s2' NR)] | |]; cbv beta; intuition. }
  eapply wp_conseq; [exact W | cbv beta | cbv beta; tauto].
  intros _ s3 ((H3 & O3) & N3).
  apply wp_bind, wp_setc. apply wp_bind, wp_get. apply wp_bind.
  match goal with |- wp _ _ _ ?s1 => set (s3' := s1) end.
  assert (NR2 : forall t p u cap, frames (Rnoreq c) (reschedule c t p u cap)).
  { intros. unfold reschedule, push. fgo PO; try (solve [nr]). }
  eapply wp_conseq; [apply wp_and;
     [apply status_resched; auto with eeq | apply (frames_wp _ _ _ s3' (NR2 _ _ _ _))] | cbv beta | cbv beta; tauto].
  intros _ s4 (H4 & N4).
  assert (N4' : noreq c s4).
  { apply N4. unfold noreq, s3'. rewrite comps_same. exact N3. }
  apply wp_bind, wp_get. apply wp_bind. apply wp_if; intros C.
  - apply wp_setc. apply wp_ret. split.
    + eapply EI_Eeq; [exact H4 | apply Eeq_m_comp; reflexivity].
    + left. unfold noreq. rewrite comps_same. exact N4'.
  - assert (F1 : frames RE (mfor (filter (fun r => r_anon (rsc s1 r)) (keys (c_requests (comps s1 c)))) (r_try n))).
    { apply (fr_mfor _ RE_po). apply re_r_try. }
    assert (F2 : frames (Rnoreq c) (mfor (filter (fun r => r_anon (rsc s1 r)) (keys (c_requests (comps s1 c)))) (r_try n))).
    { apply (fr_mfor _ PO). apply nr_r_try. }
    eapply wp_conseq; [apply wp_and; [apply (frames_wp _ _ _ s4 F1) | apply (frames_wp _ _ _ s4 F2)] | |]; cbv beta.
    + intros _ s5 (A & B). apply wp_ret. split; auto.
    + intros e s5 (A & B). auto.
Qed.

(** *** request *)
(** claimers queues only shrink, resources keep their preemptive flag *)
Definition Rcl (s s' : env) : Prop :=
  (forall r, r_preempt (rsc s' r) = r_preempt (rsc s r)) /\
  (forall r c, In c (map fst (qs s' (QClaim r))) -> In c (map fst (qs s (QClaim r)))).
Lemma Rcl_po : preorder Rcl.
Proof.
  constructor; unfold Rcl.
  - auto.
  - intros a b c (A1 & A2) (B1 & B2). split; intros; [congruence|auto].
Qed.
Lemma Rcl_leave : forall q c s, Rcl s (m_q q (adel c) s).
Proof.
  intros. split; auto. intros r x. rewrite qs_m_q. destruct (qeqb_spec (QClaim r) q); auto.
  intros I. subst. apply (keys_adel_in _ c) in I. tauto.
Qed.
Lemma Rcl_m_comp : forall c f s, Rcl s (m_comp c f s). Proof. intros. split; auto. Qed.
Lemma Rcl_minq : forall r v s, Rcl s (m_rsc r (w_minq v) s).
Proof. intros. split; auto. intros. cbn. unfold upd. destruct (Nat.eqb_spec r0 r); subst; auto. Qed.
Ltac fcl := fgo Rcl_po; try apply Rcl_m_comp; try apply Rcl_leave; try apply Rcl_minq; try (split; auto; fail).
Lemma cl_check_fail : forall c, frames Rcl (check_fail c).
Proof. intros. unfold check_fail, leave_req, q_leave. fcl. Qed.
Lemma cl_remove : forall c, frames Rcl (remove c).
Proof. intros. unfold remove. fcl. Qed.
Lemma cl_notdata : forall c, frames Rcl (check_notdata c). Proof. intros. unfold check_notdata. fcl. Qed.
Lemma cl_notmain : forall c, frames Rcl (check_notmain c). Proof. intros. unfold check_notmain. fcl. Qed.
Lemma cl_fail_time : forall c, frames Rcl (fail_time c). Proof. intros. unfold fail_time. fcl. Qed.
Lemma cl_enter_req : forall r c p, frames Rcl (q_enter (QReq r) c p).
Proof.
  intros. unfold q_enter. fcl.
Qed.

Definition Roff (c : nat) (s s' : env) := Off c s -> Off c s'.
Lemma Roff_po : forall c, preorder (Roff c). Proof. constructor; unfold Roff; auto. Qed.
Lemma off_activate : forall c0 c a d p u pr kr kw cap, c <> c0 ->
  frames (Roff c0) (activate c a d p u pr kr kw cap).
Proof.
  intros. pose proof (Roff_po c0) as PO.
  unfold activate, remove, reschedule, push, check_fail, leave_req, q_leave. fgo PO;
    unfold Roff, Off; intros; auto; rewrite ?comps_diff by congruence; auto.
Qed.

Lemma w_bump : forall n c r cs s, EI s -> Off c s -> ~ In c cs ->
  wp (mfor cs (fun c' =>
          release1 n c' r None true ;;;
          sw <- get (fun s => yl s && Nat.eqb c' (cur s)) ;;
          (if (sw : bool) then raise Unmodelled
           else activate c' None (Fin 0) (Fin 0) false false false false None)))
     (fun _ s' => EI s' /\ Off c s') (fun _ s' => EI s') s.
Proof.
  intros n c r cs s H O NI.
  apply wp_mfor_inv with (I := fun s' => EI s' /\ Off c s'); auto.
  intros x s1 Hx (H1 & O1). apply wp_bind. apply w_eeq; auto with eeq. intros _ s2 E2 H2.
  apply wp_bind, wp_get. apply wp_if; intros _; [apply wp_raise; auto|].
  eapply wp_conseq; [apply wp_and;
    [apply (frames_wp _ RE _ s2 (re_activate _ _ _ _ _ _ _ _ _))
    | apply (frames_wp _ (Roff c) _ s2); apply off_activate; intro; subst; auto] | |]; cbv beta; unfold RE.
  - intros _ s3 (A & B). split; auto. apply B. eapply Off_Eeq; eauto.
  - intros e s3 (A & B). auto.
Qed.

Lemma bump_candidates_in : forall q p av l x, In x (fst (bump_candidates q p av l)) -> In x (map fst l).
Proof.
  intros q p av l. revert av. induction l as [|[c pc] t IH]; intros av x; cbn [bump_candidates map]; auto.
  destruct (xleb (Fin q) av); cbn; [tauto|]. destruct (xleb pc p); cbn; [tauto|].
  specialize (IH (xaddq av 0) x). destruct (bump_candidates q p (xaddq av 0) t) as [cs av']; cbn in *.
  intuition.
Qed.

Lemma w_request1 : forall n c multi a s, EI s -> Off c s ->
  (r_preempt (rsc s (fst (fst a))) = true -> ~ In c (map fst (qs s (QClaim (fst (fst a)))))) ->
  wp (request1 n c multi a)
     (fun _ s' => EI s' /\ Off c s' /\ (multi = true -> Rcl s s')) (fun _ s' => EI s') s.
Proof.
  intros n c multi [[r q] p] s H O NI. cbn [fst] in NI. unfold request1.
  apply wp_bind, wp_get. apply wp_bind. apply wp_when; intros C1; [apply wp_raise; auto|].
  apply wp_bind. apply wp_when; intros C2; [apply wp_raise; auto|].
  apply wp_bind, wp_setc. apply wp_bind.
  match goal with |- wp _ _ _ ?s1 => set (s1' := s1) end.
  assert (E1 : Eeq s s1') by (apply Eeq_m_comp; reflexivity).
  pose proof (EI_Eeq _ _ H E1) as H1. pose proof (Off_Eeq _ _ _ O E1) as O1.
  assert (R1 : Rcl s s1') by apply Rcl_m_comp.
  eapply wp_conseq; [apply wp_and; [apply (frames_wp _ Eeq _ s1' (e_q_enter _ _ _))
                                   | apply (frames_wp _ Rcl _ s1' (cl_enter_req _ _ _))] | |]; cbv beta.
  2: { intros e s2 (E2 & _). eapply EI_Eeq; eauto. }
  intros _ s2 (E2 & R2).
  pose proof (EI_Eeq _ _ H1 E2) as H2. pose proof (Off_Eeq _ _ _ O1 E2) as O2.
  pose proof (po_trans _ Rcl_po _ _ _ R1 R2) as R12.
  apply wp_when; intros C3.
  - apply wp_bind, wp_get. apply wp_bind, wp_get.
    destruct (bump_candidates q p (r_mavail (rsc s2 r)) (rev (qs s2 (QClaim r)))) as [cs av'] eqn:BC.
    apply wp_when; intros C4.
    + eapply wp_conseq; [apply w_bump with (c := c); auto | |]; cbv beta; auto.
      * intro C. pose proof (bump_candidates_in q p (r_mavail (rsc s2 r)) (rev (qs s2 (QClaim r))) c) as B.
        rewrite BC in B. cbn in B. specialize (B C). rewrite map_rev, <- in_rev in B.
        apply (proj2 R12) in B. apply (NI C3); auto.
      * intros _ s3 (A & B). split; [auto|split; auto]. intros M1. rewrite C3, M1 in C1. discriminate.
    + split; [auto|split; auto].
  - split; [auto|split; auto].
Qed.

Definition no_selfbump (c : nat) (args : list (nat * Q * xq)) (s : env) : Prop :=
  forall r q p, In (r, q, p) args -> r_preempt (rsc s r) = true -> ~ In c (map fst (qs s (QClaim r))).

Lemma no_selfbump_Rcl : forall c args s s', no_selfbump c args s -> Rcl s s' -> no_selfbump c args s'.
Proof.
  intros c args s s' N (R1 & R2) r q p I P C. rewrite R1 in P. apply R2 in C. eapply N; eauto.
Qed.

Lemma w_request_args : forall n c multi args s,
  EI s -> Off c s -> no_selfbump c args s -> (multi = true \/ (length args <= 1)%nat) ->
  wp (mfor args (request1 n c multi)) (fun _ s' => EI s' /\ Off c s') (fun _ s' => EI s') s.
Proof.
  intros n c multi. induction args as [|[[r q] p] t IH]; intros s H O N M; cbn [mfor].
  - apply wp_ret. auto.
  - apply wp_bind. eapply wp_conseq; [apply w_request1; auto | |]; cbv beta.
    + cbn [fst]. intros P. eapply N; eauto. left; auto.
    + intros _ s1 (H1 & O1 & R1). destruct t as [|a t].
      * cbn [mfor]. apply wp_ret; auto.
      * destruct M as [M | M]; [|cbn in M; lia]. apply IH; auto.
        eapply no_selfbump_Rcl; [|apply R1; auto].
        intros r' q' p' I'. apply (N r' q' p'). right; auto.
    + auto.
Qed.

Lemma w_both : forall A (R : env -> env -> Prop) (m : M A) (Q : A -> env -> Prop) s,
  frames Eeq m -> frames R m -> EI s ->
  (forall a s', Eeq s s' -> R s s' -> EI s' -> Q a s') ->
  wp m Q (fun _ s' => EI s') s.
Proof.
  intros A R m Q s F1 F2 H K.
  eapply wp_conseq; [apply wp_and; [apply (frames_wp _ _ _ s F1) | apply (frames_wp _ _ _ s F2)] | |]; cbv beta.
  - intros a s' (E & R'). apply K; auto. eapply EI_Eeq; eauto.
  - intros e s' (E & R'). eapply EI_Eeq; eauto.
Qed.

Lemma re_request : forall n c args o f p u cap s, EI s -> args <> [] -> no_selfbump c args s ->
  wp (request n c args o f p u cap) (fun _ s' => EI s') (fun _ s' => EI s') s.
Proof.
  intros n c args o f p u cap s H NE NS. unfold request.
  apply wp_bind, wp_setc. apply wp_bind, wp_stat. rewrite comps_same. cbn [c_status w_oneof].
  match goal with |- wp _ _ _ ?s1 => set (s0 := s1) end.
  assert (E0 : Eeq s s0) by (apply Eeq_m_comp; reflexivity).
  assert (N0 : no_selfbump c args s0) by (eapply no_selfbump_Rcl; [exact NS | apply Rcl_m_comp]).
  pose proof (EI_Eeq _ _ H E0) as H0. pose proof (stat_Eeq c _ _ E0) as S0. clearbody s0.
  apply wp_bind.
  (* the part after the (possible) removal *)
  assert (T : forall s1, EI s1 -> Off c s1 -> no_selfbump c args s1 ->
    wp (t <- fail_time f ;; setc c (w_failed false) ;;;
      match args with
      | [] => n <- get now ;; reschedule c (Fin n) (Fin 0) false (Some false)
      | _ =>
        mfor args (request1 n c (1 <? length args)%nat) ;;;
        rq <- get (fun s => c_requests (comps s c)) ;;
        mfor rq (fun p =>
          setr (fst p) (fun x => if xltb (Fin (snd p)) (r_minq x) then w_minq (Fin (snd p)) x else x)) ;;;
        n0 <- get now ;;
        setc c (w_rem (xsubq t n0)) ;;;
        c_try (r_try n) c ;;;
        rq' <- get (fun s => c_requests (comps s c)) ;;
        when (nonnil rq')
          (setc c (w_status Requesting) ;;; reschedule c t p u cap)
      end) (fun _ s' => EI s') (fun _ s' => EI s') s1).
  { intros s1 H1 O1 N1. apply wp_bind.
    apply w_both with (R := Rcl); auto using cl_fail_time with eeq. intros t s2 E2 R2 H2.
    pose proof (Off_Eeq _ _ _ O1 E2) as O2. pose proof (no_selfbump_Rcl _ _ _ _ N1 R2) as N2.
    apply wp_bind, wp_setc.
    match goal with |- wp _ _ _ ?s1 => set (s3 := s1) end.
    assert (E3 : Eeq s2 s3) by (apply Eeq_m_comp; reflexivity).
    assert (N3 : no_selfbump c args s3) by (eapply no_selfbump_Rcl; [exact N2 | apply Rcl_m_comp]).
    pose proof (EI_Eeq _ _ H2 E3) as H3. pose proof (Off_Eeq _ _ _ O2 E3) as O3. clearbody s3.
    destruct args as [|a0 args']; [congruence|].
    apply wp_bind.
    eapply wp_conseq; [apply w_request_args; auto | |]; cbv beta; auto.
    { destruct (Nat.ltb_spec 1 (length (a0 :: args'))); auto; lia. }
    intros _ s4 (H4 & O4). apply wp_bind, wp_get. apply wp_bind.
    apply w_eeq; auto. { fgo Eeq_po. apply Eeq_m_rsc. }
    intros _ s5 E5 H5. pose proof (Off_Eeq _ _ _ O4 E5) as O5.
    apply wp_bind, wp_get. apply wp_bind, wp_setc. apply wp_bind.
    match goal with |- wp _ _ _ ?s1 => set (s6 := s1) end.
    assert (E6 : Eeq s5 s6) by (apply Eeq_m_comp; reflexivity).
    pose proof (EI_Eeq _ _ H5 E6) as H6. pose proof (Off_Eeq _ _ _ O5 E6) as O6. clearbody s6.
    eapply wp_conseq; [apply w_c_try; auto | |]; cbv beta; auto.
    intros _ s7 (H7 & D). apply wp_bind, wp_get. apply wp_when; intros C; auto.
    apply nonnil_true in C. destruct D as [D | D]; [unfold noreq in D; congruence|].
    apply wp_bind, wp_setc. apply status_resched; auto with eeq. }
  apply wp_when; intros C.
  - apply wp_bind. apply w_both with (R := Rcl); auto using cl_notdata with eeq. intros _ s1 E1 R1 H1.
    apply wp_bind. apply w_both with (R := Rcl); auto using cl_notmain with eeq. intros _ s2 E2 R2 H2.
    apply wp_bind.
    eapply wp_conseq; [apply wp_and;
      [apply w_remove with (Q := fun _ s' => EI s' /\ Off c s') (X := fun _ s' => EI s'); auto
      | apply (frames_wp _ Rcl _ s2 (cl_remove c))] | |]; cbv beta; [| tauto].
    intros _ s3 ((H3 & O3) & R3).
    apply w_both with (R := Rcl); auto using cl_check_fail with eeq. intros _ s4 E4 R4 H4.
    apply T; auto.
    + eapply Off_Eeq; eauto.
    + eapply no_selfbump_Rcl; [exact N0|].
      repeat (eapply po_trans; [apply Rcl_po | eassumption |]). apply Rcl_po.
  - apply T; auto. apply EI_stat_off; auto. apply negb_false_iff, steqb_iff in C. 
    rewrite S0, C. apply not_schedst_cur.
Qed.

Lemma EI_off_upd' : forall s c f, EI s -> Off c s -> c_onev (f (comps s c)) = c_onev (comps s c) ->
  EI (m_comp c f s).
Proof. intros. apply EI_off_upd; auto. unfold Off in H0. congruence. Qed.

