(** A component that is current, data, passive or standby has no pending request;
    an interrupted component was scheduled.  With that: the event list invariant for all operations. *)
From Coq Require Import QArith Lqa List Bool Arith ZArith Lia.
From Verif Require Import Base Kernel Wp KernelE.
Import ListNotations.
Open Scope Q_scope.

Definition idle (st : status) : Prop := st = Current \/ st = Data \/ st = Passive \/ st = Standby.
Definition okc (x : comp) : Prop :=
  (idle (c_status x) -> c_requests x = []) /\ (c_status x = Interrupted -> c_istat x = Scheduled).
Definition EL (s : env) : Prop := forall c, okc (comps s c).

Lemma not_idle_sch : ~ idle Scheduled. Proof. intros [|[|[|]]]; discriminate. Qed.
Lemma not_idle_req : ~ idle Requesting. Proof. intros [|[|[|]]]; discriminate. Qed.
Lemma not_idle_wai : ~ idle Waiting. Proof. intros [|[|[|]]]; discriminate. Qed.
Lemma not_idle_int : ~ idle Interrupted. Proof. intros [|[|[|]]]; discriminate. Qed.
Lemma idle_cur : idle Current. Proof. left; auto. Qed.
Lemma idle_dat : idle Data. Proof. right; left; auto. Qed.
Lemma idle_pas : idle Passive. Proof. right; right; left; auto. Qed.
Lemma idle_std : idle Standby. Proof. right; right; right; auto. Qed.
#[export] Hint Resolve not_idle_sch not_idle_req not_idle_wai not_idle_int idle_cur idle_dat idle_pas idle_std : idle.

Lemma EL_init : forall t0 R sv kc hp y d, EL (init t0 R sv kc hp y d).
Proof.
  intros. intros c. cbn. unfold upd. destruct (Nat.eqb c main); split; cbn; auto; discriminate.
Qed.

Definition RL (s s' : env) : Prop := EL s -> EL s'.
Lemma RL_po : preorder RL. Proof. constructor; unfold RL; auto. Qed.
Lemma RL_comp : forall c f s, (okc (comps s c) -> okc (f (comps s c))) -> RL s (m_comp c f s).
Proof.
  intros c f s H E x. rewrite comps_m_comp. destruct (Nat.eqb_spec x c); auto.
Qed.
Lemma RL_same : forall s s', comps s' = comps s -> RL s s'.
Proof. unfold RL, EL. intros s s' -> H. auto. Qed.
Lemma okc_status : forall x st, ~ idle st -> st <> Interrupted -> okc (w_status st x).
Proof. intros. split; cbn; tauto. Qed.

Ltac flf := first
  [ apply RL_same; reflexivity
  | apply RL_comp; intros [? ?]; split; cbn in *; auto; fail
  | apply RL_comp; intros _; apply okc_status; [auto with idle | discriminate] ].
Ltac fl := fgo RL_po; try (solve [flf]).

Lemma l_q_enter : forall q c p, frames RL (q_enter q c p). Proof. intros. unfold q_enter. fl. Qed.
Lemma l_q_leave : forall q c, frames RL (q_leave q c). Proof. intros. unfold q_leave. fl. Qed.
Lemma l_q_prio : forall q c, frames RL (q_prio q c). Proof. intros. unfold q_prio. fl. Qed.
Lemma l_leave_req : forall c r, frames RL (leave_req c r).
Proof. intros. unfold leave_req. fl. apply l_q_leave. Qed.
Lemma l_check_fail : forall c, frames RL (check_fail c).
Proof. intros. unfold check_fail. fl; auto using l_leave_req, l_q_leave. Qed.
Lemma l_check_notdata : forall c, frames RL (check_notdata c). Proof. intros. unfold check_notdata. fl. Qed.
Lemma l_check_notmain : forall c, frames RL (check_notmain c). Proof. intros. unfold check_notmain. fl. Qed.
Lemma l_push : forall c t p u, frames RL (push c t p u). Proof. intros. unfold push. destruct t; fl. Qed.
Lemma l_remove : forall c, frames RL (remove c). Proof. intros. unfold remove. fl. Qed.
Lemma l_reschedule : forall c t p u cap, frames RL (reschedule c t p u cap).
Proof. intros. unfold reschedule. fl. apply l_push. Qed.
#[export] Hint Resolve l_q_enter l_q_leave l_q_prio l_leave_req l_check_fail l_check_notdata l_check_notmain l_push
  l_remove l_reschedule : rl.
Lemma l_activate : forall c a d p u pr kr kw cap, frames RL (activate c a d p u pr kr kw cap).
Proof. intros. unfold activate. fl; auto with rl. Qed.
Lemma l_create : forall c a d p u sk cap, frames RL (create c a d p u sk cap).
Proof. intros. unfold create. fl; auto with rl. Qed.
Lemma l_set_remaining : forall c v p u, frames RL (set_remaining c v p u).
Proof. intros. unfold set_remaining. fl; auto with rl. Qed.
Lemma l_claim : forall c r q, frames RL (claim c r q).
Proof. intros. unfold claim. fl; auto with rl. Qed.
Lemma l_c_try : forall rt c, (forall r, frames RL (rt r)) -> frames RL (c_try rt c).
Proof.
  intros. unfold c_try. fl; auto using l_claim with rl; [apply (g_honor_any _ RL_po) | apply (g_honor_all _ RL_po)].
Qed.
Lemma l_r_try : forall n r, frames RL (r_try n r).
Proof. induction n; intros; cbn; fl; auto; apply (g_rloop _ RL_po); intros; apply l_c_try; auto. Qed.
Lemma l_release1 : forall n c r q b, frames RL (release1 n c r q b).
Proof. intros. unfold release1. fl; auto using l_r_try with rl. Qed.
Lemma l_release : forall n c a, frames RL (release n c a).
Proof. intros. unfold release. fl; auto using l_release1. Qed.
Lemma l_release_claimers : forall f n r mx, frames RL (release_claimers f n r mx).
Proof. induction n; intros r mx; cbn [release_claimers]; destruct mx as [[c p]|]; fl; auto using l_release. Qed.
Lemma l_res_release : forall n r q, frames RL (res_release n r q).
Proof. intros. unfold res_release. fl; auto using l_r_try, l_release_claimers. Qed.
Lemma l_set_cap : forall n r q, frames RL (set_cap n r q).
Proof. intros. unfold set_cap. fl; auto using l_r_try. Qed.
Lemma l_fail_time : forall sp, frames RL (fail_time sp). Proof. intros. unfold fail_time. fl. Qed.
#[export] Hint Resolve l_activate l_create l_set_remaining l_claim l_r_try l_release1 l_fail_time : rl.

(** states where everything but component c is fine *)
Definition ok2 (x : comp) : Prop := c_status x = Interrupted -> c_istat x = Scheduled.
Definition ELx (c : nat) (s : env) : Prop := (forall x, x <> c -> okc (comps s x)) /\ ok2 (comps s c).
Definition RLx (c : nat) (s s' : env) : Prop := ELx c s -> ELx c s'.
Lemma RLx_po : forall c, preorder (RLx c). Proof. constructor; unfold RLx; auto. Qed.
Lemma RLx_comp : forall c0 c f s, (c <> c0 -> okc (comps s c) -> okc (f (comps s c))) ->
  (ok2 (comps s c) -> ok2 (f (comps s c))) -> RLx c0 s (m_comp c f s).
Proof.
  intros c0 c f s H H2 [E1 E2]. split.
  - intros x N. rewrite comps_m_comp. destruct (Nat.eqb_spec x c); auto. subst. auto.
  - rewrite comps_m_comp. destruct (Nat.eqb_spec c0 c); auto. subst. auto.
Qed.
Lemma RLx_same : forall c s s', comps s' = comps s -> RLx c s s'.
Proof. unfold RLx, ELx. intros c s s' -> H. auto. Qed.
Lemma EL_ELx : forall c s, EL s -> ELx c s. Proof. intros c s H. split; [intros; apply H | exact (proj2 (H c))]. Qed.
Lemma ELx_EL : forall c s, ELx c s -> (idle (c_status (comps s c)) -> noreq c s) -> EL s.
Proof. intros c s [H H2] K x. destruct (Nat.eq_dec x c); subst; auto. split; auto. Qed.
Ltac flxf := first
  [ apply RLx_same; reflexivity
  | apply RLx_comp; [intros N; first [congruence | intros [? ?]; split; cbn in *; auto; fail
                                   | intros _; apply okc_status; [auto with idle | discriminate]]
                    | unfold ok2; cbn; first [discriminate | auto; fail]] ].
Ltac flx c := let P := constr:(RLx_po c) in fgo P; try (solve [flxf]).

(** RL of everything that only touches c as far as it matters *)
Lemma lx_q_enter : forall c0 q c p, frames (RLx c0) (q_enter q c p). Proof. intros. unfold q_enter. flx c0. Qed.
Lemma lx_q_leave : forall c0 q c, frames (RLx c0) (q_leave q c). Proof. intros. unfold q_leave. flx c0. Qed.
Lemma lx_q_prio : forall c0 q c, frames (RLx c0) (q_prio q c). Proof. intros. unfold q_prio. flx c0. Qed.
Lemma lx_check_fail : forall c0 c, frames (RLx c0) (check_fail c).
Proof. intros. unfold check_fail, leave_req. flx c0; auto using lx_q_leave. Qed.
Lemma lx_remove : forall c0 c, frames (RLx c0) (remove c). Proof. intros. unfold remove. flx c0. Qed.
Lemma lx_reschedule : forall c0 c t p u cap, frames (RLx c0) (reschedule c t p u cap).
Proof. intros. unfold reschedule, push. flx c0. Qed.
Lemma lx_c_try : forall c0 rt c, (forall r, frames (RLx c0) (rt r)) -> frames (RLx c0) (c_try rt c).
Proof.
  intros. unfold c_try, claim, leave_req.
  flx c0; auto using lx_q_prio, lx_q_enter, lx_q_leave, lx_remove, lx_reschedule;
    [apply (g_honor_any _ (RLx_po c0)) | apply (g_honor_all _ (RLx_po c0))].
Qed.
Lemma lx_r_try : forall c0 n r, frames (RLx c0) (r_try n r).
Proof. induction n; intros; cbn; flx c0; auto; apply (g_rloop _ (RLx_po c0)); intros; apply lx_c_try; auto. Qed.
Lemma lx_release1 : forall c0 n c r q b, frames (RLx c0) (release1 n c r q b).
Proof. intros. unfold release1. flx c0; auto using lx_r_try, lx_q_leave. Qed.

(** check_fail empties the requests *)
Lemma noreq_upd : forall c x f s, (c_requests (comps s c) = [] -> c_requests (f (comps s c)) = []) ->
  Rnoreq x s (m_comp c f s).
Proof.
  unfold Rnoreq, noreq. intros c x f s H N. rewrite comps_m_comp. destruct (Nat.eqb_spec x c); subst; auto.
Qed.
Ltac fn x := fgo (Rnoreq_po x); try (solve [apply noreq_upd; cbn; auto | unfold Rnoreq, noreq; cbn; auto]).
Lemma n_q_leave : forall x q c, frames (Rnoreq x) (q_leave q c). Proof. intros. unfold q_leave. fn x. Qed.
Lemma n_q_enter : forall x q c p, frames (Rnoreq x) (q_enter q c p). Proof. intros. unfold q_enter. fn x. Qed.
Lemma n_remove : forall x c, frames (Rnoreq x) (remove c). Proof. intros. unfold remove. fn x. Qed.
Lemma n_check_fail : forall x c, frames (Rnoreq x) (check_fail c).
Proof. intros. unfold check_fail, leave_req. fn x; auto using n_q_leave. Qed.
Lemma n_release1 : forall x n c r q b, frames (Rnoreq x) (release1 n c r q b).
Proof. intros. unfold release1. fn x; auto using n_q_leave, nr_r_try. Qed.
Lemma n_reschedule : forall x c t p u cap, frames (Rnoreq x) (reschedule c t p u cap).
Proof. intros. unfold reschedule, push. fn x. Qed.

Lemma w_check_fail_noreq : forall c s (X : exn -> env -> Prop), (forall e s', X e s') ->
  wp (check_fail c) (fun _ s' => noreq c s') X s.
Proof.
  intros c s X HX. unfold check_fail.
  apply wp_bind, wp_get. apply wp_bind. apply wp_when; intros C.
  - apply wp_bind. eapply wp_conseq; [apply wp_of_fst with (I := fun _ => True); auto | cbv beta | auto].
    intros _ s1 _. apply wp_bind, wp_setc.
    match goal with |- wp (setc _ _) _ _ ?s2 => assert (N : noreq c s2) by (unfold noreq; rewrite comps_same; reflexivity) end.
    apply wp_setc.
    match goal with |- wp ?m _ _ ?s2 => assert (N2 : noreq c s2) by (unfold noreq in *; rewrite comps_same; exact N);
       assert (F : frames (Rnoreq c) m) end.
    { fn c; auto using n_q_leave. }
    eapply wp_conseq; [apply (frames_wp _ _ _ _ F) | |]; cbv beta; auto.
  - apply nonnil_false in C.
    match goal with |- wp ?m _ _ ?s2 => assert (F : frames (Rnoreq c) m) end.
    { fn c; auto using n_q_leave. }
    eapply wp_conseq; [apply (frames_wp _ _ _ _ F) | |]; cbv beta; auto.
Qed.

(** wp with EL *)
Lemma w_rl : forall A (m : M A) (Q : A -> env -> Prop) s,
  frames RL m -> EL s -> (forall a s', EL s' -> Q a s') -> wp m Q (fun _ s' => EL s') s.
Proof.
  intros A m Q s F H K. eapply wp_conseq; [apply (frames_wp _ RL m s F) | |]; unfold RL; cbn; intros; auto.
Qed.
Lemma RL_intro : forall A (m : M A),
  (forall s, EL s -> wp m (fun _ s' => EL s') (fun _ s' => EL s') s) -> frames RL m.
Proof. intros A m H s K. apply wp_fst. auto. Qed.
Lemma w_cf_L : forall c s (Q : unit -> env -> Prop), EL s ->
  (forall s', EL s' -> noreq c s' -> Q tt s') -> wp (check_fail c) Q (fun _ s' => EL s') s.
Proof.
  intros c s Q H K.
  eapply wp_conseq; [apply wp_and; [apply (w_check_fail_noreq c s (fun _ _ => True)); auto
     | apply (frames_wp _ RL _ s (l_check_fail c))] | |]; cbv beta; unfold RL.
  - intros [] s' (A & B). auto.
  - tauto.
Qed.
Lemma EL_status_noreq : forall c st s, EL s -> noreq c s -> st <> Interrupted -> EL (m_comp c (w_status st) s).
Proof.
  intros c st s H N D. apply RL_comp; auto. intros _. split; cbn; auto. tauto.
Qed.
Lemma noreq_comp : forall c f s, c_requests (f (comps s c)) = c_requests (comps s c) -> noreq c s -> noreq c (m_comp c f s).
Proof. unfold noreq. intros. rewrite comps_same. congruence. Qed.
Lemma EL_comp_same : forall c f s, c_requests (f (comps s c)) = c_requests (comps s c) ->
  c_status (f (comps s c)) = c_status (comps s c) -> c_istat (f (comps s c)) = c_istat (comps s c) ->
  EL s -> EL (m_comp c f s).
Proof.
  intros c f s A B C H. apply RL_comp; auto. unfold okc. rewrite A, B, C. auto.
Qed.

(** setting the status to interrupted after recording that it was scheduled *)
Lemma EL_interrupted : forall c s, EL s -> c_istat (comps s c) = Scheduled -> EL (m_comp c (w_status Interrupted) s).
Proof.
  intros c s H E. apply RL_comp; auto. intros _. split; cbn; auto. intros C. destruct (not_idle_int C).
Qed.
Lemma l_hold : forall c sp p u i cap, frames RL (hold c sp p u i cap).
Proof.
  intros. unfold hold.
  apply (fr_bind _ RL_po); [apply (fr_stat _ RL_po) | intros st].
  apply (fr_bind _ RL_po); [fl; auto with rl | intros _].
  apply (fr_bind _ RL_po); [fl | intros t].
  apply (fr_bind _ RL_po); [fl | intros b].
  apply (fr_bind _ RL_po); [fl | intros t'].
  apply fr_if; [|fl; auto with rl].
  apply RL_intro. intros s H. apply wp_bind, wp_get.
  apply wp_bind, wp_setc, wp_bind, wp_setc, wp_bind, wp_setc, wp_setc.
  apply EL_interrupted.
  - repeat (apply RL_comp; [intros [? ?]; split; cbn in *; auto |]). auto.
  - rewrite !comps_same. reflexivity.
Qed.
Lemma l_interrupt : forall c, frames RL (interrupt c).
Proof.
  intros. apply RL_intro. intros s H. unfold interrupt. apply wp_bind, wp_stat.
  apply wp_if; intros C1; [apply wp_raise; auto|].
  apply wp_if; intros C2.
  - apply wp_setc. apply EL_comp_same; auto.
  - apply negb_false_iff, orb_true_iff in C1. destruct C1 as [C1 | C1]; [|congruence].
    apply steqb_iff in C1.
    apply wp_bind. unfold check_notdata. apply wp_bind, wp_stat. apply wp_when; intros C3; [apply wp_raise; auto|].
    apply wp_bind.
    assert (W : wp (remove c) (fun _ s' => EL s' /\ c_status (comps s' c) = Scheduled) (fun _ s' => EL s') s).
    { eapply wp_conseq; [apply wp_and with (X1 := fun _ s' => EL s') (X2 := fun _ _ => True);
        [apply w_rl with (Q := fun _ s' => EL s'); auto with rl |] | |]; cbv beta.
      - instantiate (1 := fun _ s' => c_status (comps s' c) = Scheduled).
        unfold remove. wgo; auto; cbn; auto. unfold upd. rewrite Nat.eqb_refl. exact C1.
      - tauto.
      - tauto. }
    eapply wp_conseq; [exact W | cbv beta | cbv beta; auto].
    intros _ s2 (H2 & S2). wgo.
    apply EL_interrupted.
    + apply EL_comp_same; auto.
      apply RL_comp.
      * rewrite comps_same. cbn. rewrite S2. intros [K1 K2]. split; cbn; rewrite ?S2; auto.
        intros C. destruct (not_idle_sch C).
      * apply EL_comp_same; auto.
    + rewrite !comps_same. cbn. auto.
Qed.
Lemma l_resume : forall c a p u, frames RL (resume c a p u).
Proof.
  intros. apply RL_intro. intros s H. unfold resume. apply wp_bind, wp_stat.
  apply wp_if; intros C1; [|apply wp_raise; auto]. apply steqb_iff in C1.
  apply wp_bind, wp_setc. apply wp_bind, wp_get.
  assert (IS : c_istat (comps s c) = Scheduled) by (apply (proj2 (H c)); auto).
  match goal with |- wp _ _ _ ?s1 => set (s1' := s1) end.
  assert (H1 : EL s1') by (apply EL_comp_same; auto).
  assert (I1 : c_istat (comps s1' c) = Scheduled) by (unfold s1'; rewrite comps_same; auto).
  clearbody s1'.
  apply wp_if; intros C2; [apply wp_ret; auto|].
  apply wp_bind, wp_setc. apply wp_bind, wp_stat.
  match goal with |- wp _ _ _ ?s1 => set (s2 := s1) end.
  assert (H2 : EL s2).
  { apply RL_comp; auto. intros _. rewrite I1. apply okc_status; [auto with idle | discriminate]. }
  clearbody s2. apply wp_if; intros C3; [|apply wp_raise; auto].
  apply wp_bind, wp_get. apply w_rl; auto with rl.
Qed.
Lemma l_passivate : forall c, frames RL (passivate c).
Proof.
  intros. apply RL_intro. intros s H. unfold passivate. apply wp_bind, wp_stat. apply wp_bind.
  assert (T : forall s', EL s' -> noreq c s' ->
    wp (setc c (w_sched PInf) ;;; setc c (w_status Passive)) (fun _ s' => EL s') (fun _ s' => EL s') s').
  { intros s' H' N'. wgo. apply EL_status_noreq; [apply EL_comp_same; auto | apply noreq_comp; auto | discriminate]. }
  apply wp_if; intros C.
  - apply steqb_iff in C. apply wp_setc. apply T; [apply EL_comp_same; auto|].
    apply noreq_comp; auto. apply (proj1 (H c)). rewrite C. auto with idle.
  - apply wp_bind. apply w_rl; auto with rl. intros _ s1 H1. apply wp_bind. apply w_rl; auto with rl. intros _ s2 H2.
    apply wp_bind. apply w_cf_L; auto. intros s3 H3 N3. apply wp_bind, wp_get, wp_setc.
    apply T; [apply EL_comp_same; auto | apply noreq_comp; auto].
Qed.
Lemma l_standby : forall c, frames RL (standby c).
Proof.
  intros. apply RL_intro. intros s H. unfold standby. apply wp_bind, wp_stat. apply wp_bind.
  assert (T : forall s', EL s' -> noreq c s' ->
    wp (n <- get now ;; setc c (w_sched (Fin n)) ;;; put (fun s => s_stby (stby s ++ [c]) s) ;;;
        setc c (w_status Standby)) (fun _ s' => EL s') (fun _ s' => EL s') s').
  { intros s' H' N'. wgo. apply EL_status_noreq; [| | discriminate].
    - apply (RL_same (m_comp c (w_sched (Fin (now s'))) s')); [reflexivity|]. apply EL_comp_same; auto.
    - unfold noreq. cbn. unfold upd. rewrite Nat.eqb_refl. exact N'. }
  apply wp_when; intros C.
  - apply wp_bind. apply w_rl; auto with rl. intros _ s1 H1. apply wp_bind. apply w_rl; auto with rl. intros _ s2 H2.
    apply wp_bind. apply w_rl; auto with rl. intros _ s3 H3.
    apply w_cf_L; auto.
  - apply negb_false_iff, steqb_iff in C. apply T; auto. apply (proj1 (H c)). rewrite C. auto with idle.
Qed.

(** releasing claims keeps "no requests, not on the event list" of any component *)
Definition quiet (c : nat) (s : env) : Prop := noreq c s /\ Off c s.
Definition Rq (c : nat) (s s' : env) : Prop := quiet c s -> quiet c s'.
Lemma Rq_po : forall c, preorder (Rq c). Proof. constructor; unfold Rq; auto. Qed.
Lemma Rq_same : forall c s s', comps s' = comps s -> Rq c s s'.
Proof. unfold Rq, quiet, noreq, Off. intros c s s' ->. auto. Qed.
Lemma Rq_comp : forall c x f s, (c <> x \/ (c_requests (f (comps s c)) = c_requests (comps s c) /\
   c_onev (f (comps s c)) = c_onev (comps s c))) -> Rq x s (m_comp c f s).
Proof.
  intros c x f s H (N & O). unfold quiet, noreq, Off in *. rewrite comps_m_comp.
  destruct (Nat.eqb_spec x c); auto. subst. destruct H as [H|[-> ->]]; [congruence|]. auto.
Qed.
Ltac fq x := fgo (Rq_po x); try (solve [apply Rq_same; reflexivity | apply Rq_comp; first [left; congruence | right; split; reflexivity]]).
Lemma q_q_leave : forall x q c, frames (Rq x) (q_leave q c). Proof. intros. unfold q_leave. fq x. Qed.
Lemma q_q_enter : forall x q c p, frames (Rq x) (q_enter q c p). Proof. intros. unfold q_enter. fq x. Qed.
Lemma q_c_try : forall x rt c, (forall r, frames (Rq x) (rt r)) -> frames (Rq x) (c_try rt c).
Proof.
  intros x rt c Hrt. destruct (Nat.eq_dec c x) as [->|N].
  - (* x has no requests: nothing happens *)
    intros s (N & O). unfold c_try. apply wp_fst. apply wp_bind, wp_stat. apply wp_if; intros C.
    + apply wp_ret. split; auto.
    + apply wp_bind, wp_get. apply wp_bind.
      assert (E : forall b : bool, (if b then honor_any x else honor_all x) s = (s, Ok [])).
      { intros b. unfold noreq in N. destruct b; unfold honor_any, honor_all, bind, get; rewrite N; reflexivity. }
      unfold wp at 1. rewrite E. apply wp_ret. split; auto.
  - unfold c_try, claim, leave_req, remove, reschedule, push.
    fq x; auto using q_q_leave, q_q_enter; try apply (g_q_prio _ (Rq_po x));
      [apply (g_honor_any _ (Rq_po x)) | apply (g_honor_all _ (Rq_po x))].
Qed.
Lemma q_r_try : forall x n r, frames (Rq x) (r_try n r).
Proof. induction n; intros; cbn; fq x; auto; apply (g_rloop _ (Rq_po x)); intros; apply q_c_try; auto. Qed.
Lemma q_release1 : forall x n c r q b, frames (Rq x) (release1 n c r q b).
Proof. intros. unfold release1. fq x; auto using q_q_leave, q_r_try. Qed.

Lemma l_cancel : forall n c, frames RL (cancel n c).
Proof.
  intros. apply RL_intro. intros s H. unfold cancel. apply wp_bind, wp_stat.
  apply wp_if; intros C1; [apply wp_ret; auto|]. apply wp_bind.
  assert (T : forall s', EL s' -> noreq c s' ->
    wp (cl <- get (fun s => c_claims (comps s c)) ;;
        mfor (keys cl) (fun r => release1 n c r None false) ;;;
        setc c (w_sched PInf) ;;; setc c (w_status Data)) (fun _ s' => EL s') (fun _ s' => EL s') s').
  { intros s' H' N'. apply wp_bind, wp_get. apply wp_bind.
    eapply wp_conseq; [apply wp_mfor_inv with (I := fun s' => EL s' /\ noreq c s') (X := fun _ s' => EL s'); auto | cbv beta | cbv beta; auto].
    - intros r s2 _ (H2 & N2). eapply wp_conseq; [apply wp_and;
        [apply (frames_wp _ RL _ s2 (l_release1 n c r None false)) | apply (frames_wp _ _ _ s2 (n_release1 c n c r None false))] | |]; cbv beta;
        unfold RL, Rnoreq; intuition.
    - intros _ s2 (H2 & N2). wgo. apply EL_status_noreq; [apply EL_comp_same; auto | apply noreq_comp; auto | discriminate]. }
  apply wp_when; intros C2.
  - apply wp_bind. apply w_rl; auto with rl. intros _ s1 H1. apply w_cf_L; auto.
  - apply negb_false_iff, steqb_iff in C2. apply T; auto. apply (proj1 (H c)). rewrite C2. auto with idle.
Qed.
Lemma l_terminate : forall n c s, EL s -> c_status (comps s c) = Current ->
  wp (terminate n c) (fun _ s' => EL s') (fun _ s' => EL s') s.
Proof.
  intros n c s H S. unfold terminate.
  assert (N : noreq c s) by (apply (proj1 (H c)); rewrite S; auto with idle).
  apply wp_bind, wp_get. apply wp_bind.
  eapply wp_conseq; [apply wp_mfor_inv with (I := fun s' => EL s' /\ noreq c s') (X := fun _ s' => EL s'); auto | cbv beta | cbv beta; auto].
  - intros r s2 _ (H2 & N2). eapply wp_conseq; [apply wp_and;
      [apply (frames_wp _ RL _ s2 (l_release1 n c r None false)) | apply (frames_wp _ _ _ s2 (n_release1 c n c r None false))] | |]; cbv beta;
      unfold RL, Rnoreq; intuition.
  - intros _ s2 (H2 & N2). wgo.
    apply EL_comp_same; auto. apply EL_status_noreq; [| | discriminate].
    + repeat (apply EL_comp_same; auto).
    + repeat (apply noreq_comp; auto).
Qed.

(** request: only if it succeeds *)
Lemma lx_request1 : forall n c m a, frames (RLx c) (request1 n c m a).
Proof.
  intros. unfold request1, activate. destruct a as [[r q] p].
  flx c; auto using lx_q_enter, lx_release1, lx_check_fail, lx_remove, lx_reschedule.
Qed.
Lemma c_try_noreq : forall n c s,
  wp (c_try (r_try n) c) (fun _ s' => s' = s \/ noreq c s') (fun _ _ => True) s.
Proof.
  intros n c s. unfold c_try. apply wp_bind, wp_stat. apply wp_if; intros C; [apply wp_ret; auto|].
  apply wp_bind, wp_get. apply wp_bind.
  assert (F : frames (fun s s' => s' = s) (if c_oneof (comps s c) then honor_any c else honor_all c)).
  { assert (P : preorder (fun s s' : env => s' = s)) by (constructor; congruence).
    apply fr_if; [apply (g_honor_any _ P) | apply (g_honor_all _ P)]. }
  eapply wp_conseq; [apply (frames_wp _ _ _ s F) | cbv beta | auto].
  intros rh s1 ->. destruct rh; [apply wp_ret; auto|].
  apply wp_bind, wp_get. apply wp_bind, wp_get. apply wp_bind.
  eapply wp_conseq; [apply wp_of_fst with (I := fun _ => True); auto | cbv beta | auto].
  intros _ s2 _. apply wp_bind, wp_setc.
  match goal with |- wp ?m _ _ ?s2 => assert (N2 : noreq c s2) by (unfold noreq in *; rewrite comps_same; reflexivity);
       assert (F2 : frames (Rnoreq c) m) end.
  { fn c; auto using n_remove, n_reschedule, nr_r_try. }
  eapply wp_conseq; [apply (frames_wp _ _ _ _ F2) | |]; cbv beta; auto.
Qed.
Lemma l_request : forall n c args o f p u cap s, EL s ->
  wp (request n c args o f p u cap) (fun _ s' => EL s') (fun _ _ => True) s.
Proof.
  intros n c args o f p u cap s H. unfold request.
  apply wp_bind, wp_setc. apply wp_bind, wp_stat.
  match goal with |- wp _ _ _ ?s1 => set (s0 := s1) end.
  assert (H0 : EL s0) by (apply EL_comp_same; auto). clearbody s0.
  apply wp_bind. apply wp_conseq with (Q := fun _ s' => EL s') (X := fun _ s' => EL s'); auto.
  { apply wp_when; intros _; auto. apply wp_bind. apply w_rl; auto with rl. intros _ s1 H1.
    apply wp_bind. apply w_rl; auto with rl. intros _ s2 H2. apply wp_bind. apply w_rl; auto with rl. intros _ s3 H3.
    apply w_rl; auto with rl. }
  intros _ s1 H1. apply wp_bind. eapply wp_conseq; [apply (w_rl _ _ (fun _ s' => EL s')); auto with rl | cbv beta | auto].
  intros t s2 H2. apply wp_bind, wp_setc.
  match goal with |- wp _ _ _ ?s1 => set (s3 := s1) end.
  assert (H3 : EL s3) by (apply EL_comp_same; auto). clearbody s3.
  destruct args as [|a0 args'].
  { apply wp_bind, wp_get. eapply wp_conseq; [apply (w_rl _ _ (fun _ s' => EL s')); auto with rl | |]; auto. }
  set (args := a0 :: args') in *. clearbody args.
  apply wp_bind. eapply wp_conseq; [apply wp_mfor_inv with (I := ELx c) (X := fun _ _ => True); [apply EL_ELx; auto|] | cbv beta | auto].
  { intros x s4 _ H4. eapply wp_conseq; [apply (frames_wp _ (RLx c) _ s4 (lx_request1 _ _ _ _)) | |]; cbv beta; unfold RLx; auto. }
  intros _ s4 H4. apply wp_bind, wp_get. apply wp_bind.
  match goal with |- wp ?m _ _ s4 => assert (F : frames (RLx c) m) by (flx c) end.
  eapply wp_conseq; [apply (frames_wp _ (RLx c) _ s4 F) | cbv beta | auto]. clear F. intros _ s5 H5. specialize (H5 H4).
  apply wp_bind, wp_get. apply wp_bind, wp_setc. apply wp_bind.
  match goal with |- wp _ _ _ ?s1 => set (s6 := s1) end.
  assert (H6 : ELx c s6) by (apply RLx_comp; auto; congruence). clearbody s6.
  eapply wp_conseq; [apply wp_and; [apply c_try_noreq | apply (frames_wp _ (RLx c) _ s6)] | cbv beta | auto].
  { apply lx_c_try. apply lx_r_try. }
  intros _ s7 (A & B). specialize (B H6).
  apply wp_bind, wp_get. apply wp_when; intros C.
  - apply wp_bind, wp_setc.
    eapply wp_conseq; [apply (w_rl _ _ (fun _ s' => EL s')); auto with rl | |]; auto.
    apply ELx_EL with (c := c).
    + apply RLx_comp; auto; [congruence | unfold ok2; cbn; discriminate].
    + rewrite comps_same. cbn. intros D. destruct (not_idle_req D).
  - apply nonnil_false in C. apply ELx_EL with (c := c); auto.
Qed.

(** waiting *)
Lemma l_c_trywait : forall c, frames RL (c_trywait c).
Proof. intros. unfold c_trywait, leave_wait. fl; auto with rl. Qed.
Lemma l_s_trywait : forall l m, frames RL (s_trywait l m).
Proof. induction l; intros m; cbn; fl; auto using l_c_trywait. Qed.
Lemma l_wait : forall c a al f p u cap, frames RL (wait c a al f p u cap).
Proof.
  intros. unfold wait, wait1. fl; auto using l_c_trywait with rl.
Qed.
Lemma l_wait_for : forall c a al f p u cap, frames RL (wait_for c a al f p u cap).
Proof. intros. unfold wait_for. fl; auto using l_c_trywait with rl. Qed.
Lemma l_st_set : forall st v, frames RL (st_set st v).
Proof. intros. unfold st_set, set_sval, st_trywait. fl; auto using l_s_trywait. Qed.
Lemma l_st_trigger : forall st v a m, frames RL (st_trigger st v a m).
Proof. intros. unfold st_trigger, set_sval, st_trywait. fl; auto using l_s_trywait. Qed.

(** stores *)
Lemma l_leave_from : forall d, frames RL (leave_from d). Proof. intros. unfold leave_from. fl; auto with rl. Qed.
Lemma l_leave_to : forall d, frames RL (leave_to d). Proof. intros. unfold leave_to. fl; auto with rl. Qed.
Lemma l_give : forall d c, frames RL (give d c). Proof. intros. unfold give. fl; auto with rl. Qed.
#[export] Hint Resolve l_leave_from l_leave_to l_give l_c_trywait : rl.
Lemma l_item : forall n, (forall k c w, frames RL (item_enter n k c w)) /\ (forall k c, frames RL (item_leave n k c)).
Proof.
  induction n as [|n [IH1 IH2]]; split; intros; cbn; unfold set_kmav; fl; auto with rl.
Qed.
Lemma l_item_enter : forall n k c w, frames RL (item_enter n k c w). Proof. intros. apply l_item. Qed.
Lemma l_item_leave : forall n k c, frames RL (item_leave n k c). Proof. intros. apply l_item. Qed.
#[export] Hint Resolve l_item_enter l_item_leave : rl.
Lemma l_from_store : forall n c ks f key rp fl fp u cap, frames RL (from_store n c ks f key rp fl fp u cap).
Proof. intros. unfold from_store. fl; auto with rl. Qed.
Lemma l_to_try : forall n c i p ks, frames RL (to_try n c i p ks).
Proof. induction ks; cbn; fl; auto with rl. Qed.
Lemma l_to_store : forall n c ks i rp p fl fp u cap, frames RL (to_store n c ks i rp p fl fp u cap).
Proof. intros. unfold to_store. fl; auto using l_to_try with rl. Qed.
Lemma l_rescan_items : forall n k d l, frames RL (rescan_items n k d l).
Proof. induction l; cbn; fl; auto with rl. Qed.
Lemma l_rescan : forall n k, frames RL (rescan n k).
Proof. intros. unfold rescan. fl; auto using l_rescan_items. Qed.
Lemma l_set_filter : forall n c f, frames RL (set_filter n c f).
Proof. intros. unfold set_filter. fl; auto using l_rescan. Qed.
Lemma l_rescan_to_loop : forall n k l, frames RL (rescan_to_loop n k l).
Proof. induction l; cbn; fl; auto with rl. Qed.
Lemma l_st_set_cap : forall n k cap, frames RL (st_set_cap n k cap).
Proof. intros. unfold st_set_cap, set_kmav. fl; auto using l_rescan_to_loop. Qed.

(** scheduler *)
Lemma l_continue : forall n c, frames RL (continue n c).
Proof. intros. unfold continue. fl; auto with rl. Qed.
Lemma l_run : forall sp p u cap, frames RL (run sp p u cap).
Proof. intros. unfold run. fl; auto with rl. Qed.

(** no request appears by itself *)
Section NoReq.
  Context (x : nat).
  Local Notation PO := (Rnoreq_po x).
  Lemma n_comp_same : forall c f s, c_requests (f (comps s c)) = c_requests (comps s c) -> Rnoreq x s (m_comp c f s).
  Proof. intros. apply noreq_upd. congruence. Qed.
  Ltac f := fn x; auto using n_q_leave, n_q_enter, n_remove, n_check_fail, n_release1, n_reschedule, nr_r_try.
  Lemma n_activate : forall c a d p u pr kr kw cap, frames (Rnoreq x) (activate c a d p u pr kr kw cap).
  Proof. intros. unfold activate. f. Qed.
  Lemma n_create : forall c a d p u sk cap, frames (Rnoreq x) (create c a d p u sk cap).
  Proof. intros. unfold create. f. Qed.
  Lemma n_hold : forall c sp p u i cap, frames (Rnoreq x) (hold c sp p u i cap).
  Proof. intros. unfold hold, check_notdata. f. Qed.
  Lemma n_passivate : forall c, frames (Rnoreq x) (passivate c).
  Proof. intros. unfold passivate, check_notdata. f. Qed.
  Lemma n_interrupt : forall c, frames (Rnoreq x) (interrupt c).
  Proof. intros. unfold interrupt, check_notdata. f. Qed.
  Lemma n_resume : forall c a p u, frames (Rnoreq x) (resume c a p u).
  Proof. intros. unfold resume. f. Qed.
  Lemma n_standby : forall c, frames (Rnoreq x) (standby c).
  Proof. intros. unfold standby, check_notdata, check_notmain. f. Qed.
  Lemma n_set_remaining : forall c v p u, frames (Rnoreq x) (set_remaining c v p u).
  Proof. intros. unfold set_remaining. f. Qed.
  Lemma n_cancel : forall n c, frames (Rnoreq x) (cancel n c).
  Proof. intros. unfold cancel. f. Qed.
  Lemma n_release : forall n c a, frames (Rnoreq x) (release n c a).
  Proof. intros. unfold release. f. Qed.
  Lemma n_release_claimers : forall g n r mx, frames (Rnoreq x) (release_claimers g n r mx).
  Proof. induction n; intros r mx; cbn [release_claimers]; destruct mx as [[c p]|]; f; apply n_release. Qed.
  Lemma n_res_release : forall n r q, frames (Rnoreq x) (res_release n r q).
  Proof. intros. unfold res_release. f; apply n_release_claimers. Qed.
  Lemma n_set_cap : forall n r q, frames (Rnoreq x) (set_cap n r q).
  Proof. intros. unfold set_cap. f. Qed.
  Lemma n_c_try : forall n c, frames (Rnoreq x) (c_try (r_try n) c).
  Proof. intros. apply nr_c_try. apply nr_r_try. Qed.
  Lemma n_request : forall n c args o g p u cap, x <> c -> frames (Rnoreq x) (request n c args o g p u cap).
  Proof.
    intros. unfold request, check_notdata, check_notmain, fail_time, request1. f; auto using n_c_try, n_activate.
    unfold Rnoreq, noreq. rewrite comps_diff; auto.
  Qed.
  Lemma n_c_trywait : forall c, frames (Rnoreq x) (c_trywait c).
  Proof. intros. unfold c_trywait, leave_wait. f. Qed.
  Lemma n_s_trywait : forall l m, frames (Rnoreq x) (s_trywait l m).
  Proof. induction l; intros m; cbn; f; auto using n_c_trywait. Qed.
  Lemma n_wait : forall c a al g p u cap, frames (Rnoreq x) (wait c a al g p u cap).
  Proof. intros. unfold wait, wait1, check_notdata, check_notmain, fail_time. f; auto using n_c_trywait. Qed.
  Lemma n_wait_for : forall c a al g p u cap, frames (Rnoreq x) (wait_for c a al g p u cap).
  Proof. intros. unfold wait_for, check_notdata, check_notmain, fail_time. f; auto using n_c_trywait. Qed.
  Lemma n_st_set : forall st v, frames (Rnoreq x) (st_set st v).
  Proof. intros. unfold st_set, set_sval, st_trywait. f; auto using n_s_trywait. Qed.
  Lemma n_st_trigger : forall st v a m, frames (Rnoreq x) (st_trigger st v a m).
  Proof. intros. unfold st_trigger, set_sval, st_trywait. f; auto using n_s_trywait. Qed.
  Lemma n_item : forall n, (forall k c w, frames (Rnoreq x) (item_enter n k c w)) /\ (forall k c, frames (Rnoreq x) (item_leave n k c)).
  Proof. induction n as [|n [IH1 IH2]]; split; intros; cbn; unfold set_kmav, leave_from, leave_to, give; f. Qed.
  Lemma n_item_enter : forall n k c w, frames (Rnoreq x) (item_enter n k c w). Proof. intros. apply n_item. Qed.
  Lemma n_item_leave : forall n k c, frames (Rnoreq x) (item_leave n k c). Proof. intros. apply n_item. Qed.
  Lemma n_from_store : forall n c ks g key rp fl fp u cap, frames (Rnoreq x) (from_store n c ks g key rp fl fp u cap).
  Proof. intros. unfold from_store, check_notdata, check_notmain, fail_time. f; auto using n_item_leave. Qed.
  Lemma n_to_try : forall n c i p ks, frames (Rnoreq x) (to_try n c i p ks).
  Proof. induction ks; cbn; f; auto using n_item_enter. Qed.
  Lemma n_to_store : forall n c ks i rp p fl fp u cap, frames (Rnoreq x) (to_store n c ks i rp p fl fp u cap).
  Proof. intros. unfold to_store, check_notdata, check_notmain, fail_time. f; auto using n_to_try. Qed.
  Lemma n_rescan_items : forall n k d l, frames (Rnoreq x) (rescan_items n k d l).
  Proof. induction l; cbn; unfold leave_from, give; f; auto using n_item_leave. Qed.
  Lemma n_rescan : forall n k, frames (Rnoreq x) (rescan n k).
  Proof. intros. unfold rescan. f; auto using n_rescan_items. Qed.
  Lemma n_set_filter : forall n c g, frames (Rnoreq x) (set_filter n c g).
  Proof. intros. unfold set_filter. f; auto using n_rescan. Qed.
  Lemma n_rescan_to_loop : forall n k l, frames (Rnoreq x) (rescan_to_loop n k l).
  Proof. induction l; cbn; unfold leave_to; f; auto using n_item_enter. Qed.
  Lemma n_st_set_cap : forall n k cap, frames (Rnoreq x) (st_set_cap n k cap).
  Proof. intros. unfold st_set_cap, set_kmav. f; auto using n_rescan_to_loop. Qed.
  Lemma n_continue : forall n c, frames (Rnoreq x) (continue n c).
  Proof. intros. unfold continue. f. Qed.
  Lemma n_run : forall sp p u cap, frames (Rnoreq x) (run sp p u cap).
  Proof. intros. unfold run. f. Qed.
  Lemma n_terminate : forall n c, frames (Rnoreq x) (terminate n c).
  Proof. intros. unfold terminate. f. Qed.
  Lemma n_step : forall n, frames (Rnoreq x) (step n).
  Proof. intros. unfold step, step_event. f; auto using n_continue. Qed.
  Lemma n_exec : forall n o, (forall c a oo g p u cap, o = ORequest c a oo g p u cap -> c <> x) -> frames (Rnoreq x) (exec n o).
  Proof.
    intros n o H. destruct o; cbn [exec];
      auto using n_create, n_activate, n_hold, n_passivate, n_interrupt, n_resume, n_cancel, n_standby,
        n_set_remaining, n_release, n_res_release, n_set_cap, n_wait, n_wait_for, n_st_set,
        n_st_trigger, n_from_store, n_to_store, n_item_enter, n_item_leave, n_st_set_cap, n_rescan,
        n_set_filter, n_run, n_step.
    - apply n_request. intro; subst. eapply H; eauto.
    - f.
    - f.
    - unfold reset_now. f.
    - f. apply n_terminate.
  Qed.
End NoReq.

Lemma l_step : forall n s, EL s -> noreq main s ->
  wp (step n) (fun _ s' => EL s') (fun _ _ => True) s.
Proof.
  intros n s H NM.
  assert (EV : forall s1, EL s1 -> noreq main s1 -> wp (step_event n) (fun _ s' => EL s') (fun _ _ => True) s1).
  { clear s H NM. intros s H NM. unfold step_event. apply wp_bind, wp_get. apply wp_bind.
    apply wp_conseq with (Q := fun _ s1 => EL s1 /\ noreq main s1) (X := fun _ _ => True); auto.
    { apply wp_when; intros; wgo; auto. }
    intros _ s1 (H1 & N1). apply wp_bind, wp_get. apply wp_bind.
    apply wp_conseq with (Q := fun _ s1 => EL s1 /\ noreq main s1) (X := fun _ _ => True); auto.
    { destruct (ev_pop (evl s1)) as [[e l']|]; wgo; auto. }
    intros x s2 (H2 & N2). cbv zeta. apply wp_bind.
    apply wp_conseq with (Q := fun _ s1 => EL s1 /\ noreq main s1) (X := fun _ _ => True); auto.
    { assert (forall c, EL (m_comp c (w_onev false) s2) /\ noreq main (m_comp c (w_onev false) s2)) as K.
      { intros c. split; [apply EL_comp_same; auto | apply n_comp_same; auto]. }
      destruct x; wgo; apply K. }
    intros _ s3 (H3 & N3).
    set (c := match x with Some e => e_c e | None => main end).
    apply wp_bind, wp_put. apply wp_bind, wp_setc. apply wp_bind, wp_setc.
    match goal with |- wp _ _ _ ?s1 => set (s4 := s1) end.
    assert (H4 : ELx c s4).
    { unfold s4. apply RLx_comp; [congruence | unfold ok2; cbn; auto |].
      apply RLx_comp; [congruence | unfold ok2; cbn; discriminate |].
      apply RLx_same with (s := s3); auto. apply EL_ELx; auto. }
    assert (N4 : noreq main s4).
    { unfold s4. do 2 (apply n_comp_same; auto). }
    apply wp_if; intros C.
    + apply wp_put. apply Nat.eqb_eq in C.
      apply (ELx_EL c); auto. intros _. rewrite C. exact N4.
    + apply wp_bind. eapply wp_conseq; [apply wp_and; [apply (w_check_fail_noreq c s4 (fun _ _ => True)); auto
        | apply (frames_wp _ _ _ s4 (lx_check_fail c c))] | cbv beta | auto].
      intros _ s5 (N5 & H5). specialize (H5 H4).
      eapply wp_conseq; [apply w_rl with (Q := fun _ s' => EL s'); auto using l_continue | |]; auto.
      apply (ELx_EL c); auto. }
  unfold step. apply wp_bind, wp_get. apply wp_bind, wp_get. apply wp_bind, wp_get.
  destruct (if c_skip (comps s (cur s)) then [] else pend s) as [|c t]; [apply EV; auto|].
  apply wp_bind, wp_put. apply wp_bind, wp_stat. apply wp_if; intros C.
  - apply steqb_iff in C. cbn in C. wgo; auto.
    eapply wp_conseq; [apply w_rl with (Q := fun _ s' => EL s'); auto using l_continue | |]; auto.
    match goal with |- EL (s_cur _ ?s1) => apply (RL_same s1); [reflexivity|] end.
    apply EL_comp_same; auto. apply EL_status_noreq; auto; [| discriminate].
    apply (proj1 (H c)). rewrite C. auto with idle.
  - apply EV; auto.
Qed.
