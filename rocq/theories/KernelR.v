(** A component that is current, data, passive or standby is not registered with any state or store:
    it has no waits and no pending from_store / to_store. *)
From Coq Require Import QArith Lqa List Bool Arith ZArith Lia.
From Verif Require Import Base Kernel Wp KernelE KernelL KernelX.
Import ListNotations.
Open Scope Q_scope.

Definition unr (x : comp) : Prop := c_waits x = [] /\ c_from x = [] /\ c_to x = [].
Definition okr (x : comp) : Prop := idle (c_status x) -> unr x.
Definition RI (s : env) : Prop := forall c, okr (comps s c).
Definition RR (s s' : env) : Prop := RI s -> RI s'.
Lemma RR_po : preorder RR. Proof. constructor; unfold RR; auto. Qed.
Lemma RR_comp : forall c f s, (okr (comps s c) -> okr (f (comps s c))) -> RR s (m_comp c f s).
Proof. intros c f s H E x. rewrite comps_m_comp. destruct (Nat.eqb_spec x c); auto. Qed.
Lemma RR_same : forall s s', comps s' = comps s -> RR s s'.
Proof. unfold RR, RI. intros s s' -> H. auto. Qed.
Lemma okr_status : forall x st, ~ idle st -> okr (w_status st x).
Proof. intros. intros K. cbn in K. tauto. Qed.
Lemma okr_shrink : forall x y, c_status y = c_status x ->
  (c_waits y = c_waits x \/ c_waits y = []) -> (c_from y = c_from x \/ c_from y = []) -> (c_to y = c_to x \/ c_to y = []) ->
  okr x -> okr y.
Proof.
  intros x y E A B C H I. rewrite E in I. destruct (H I) as (H1 & H2 & H3). repeat split; [destruct A | destruct B | destruct C]; congruence.
Qed.
Ltac frf := first
  [ apply RR_same; reflexivity
  | apply RR_comp; apply okr_shrink; solve [cbn; auto]
  | apply RR_comp; intros _; apply okr_status; solve [auto with idle] ].
Ltac fr := fgo RR_po; try (solve [frf]).

Lemma r_q_enter : forall q c p, frames RR (q_enter q c p). Proof. intros. unfold q_enter. fr. Qed.
Lemma r_q_leave : forall q c, frames RR (q_leave q c). Proof. intros. unfold q_leave. fr. Qed.
Lemma r_q_prio : forall q c, frames RR (q_prio q c). Proof. intros. unfold q_prio. fr. Qed.
Lemma r_leave_req : forall c r, frames RR (leave_req c r).
Proof. intros. unfold leave_req. fr. apply r_q_leave. Qed.
Lemma r_check_fail : forall c, frames RR (check_fail c).
Proof. intros. unfold check_fail. fr; auto using r_leave_req, r_q_leave. Qed.
Lemma r_check_notdata : forall c, frames RR (check_notdata c). Proof. intros. unfold check_notdata. fr. Qed.
Lemma r_check_notmain : forall c, frames RR (check_notmain c). Proof. intros. unfold check_notmain. fr. Qed.
Lemma r_remove : forall c, frames RR (remove c). Proof. intros. unfold remove. fr. Qed.
Lemma r_reschedule : forall c t p u cap, frames RR (reschedule c t p u cap).
Proof. intros. unfold reschedule, push. fr. Qed.
#[export] Hint Resolve r_q_enter r_q_leave r_q_prio r_leave_req r_check_fail r_check_notdata r_check_notmain
  r_remove r_reschedule : rr.
Lemma r_activate : forall c a d p u pr kr kw cap, frames RR (activate c a d p u pr kr kw cap).
Proof. intros. unfold activate. fr; auto with rr. Qed.
Lemma r_create : forall c a d p u sk cap, frames RR (create c a d p u sk cap).
Proof. intros. unfold create. fr; auto with rr. Qed.
Lemma r_hold : forall c sp p u i cap, frames RR (hold c sp p u i cap).
Proof. intros. unfold hold. fr; auto with rr. Qed.
Lemma r_interrupt : forall c, frames RR (interrupt c).
Proof. intros. unfold interrupt. fr; auto with rr. Qed.
Lemma r_set_remaining : forall c v p u, frames RR (set_remaining c v p u).
Proof. intros. unfold set_remaining. fr; auto with rr. Qed.
Lemma r_claim : forall c r q, frames RR (claim c r q).
Proof. intros. unfold claim. fr; auto with rr. Qed.
Lemma r_c_try : forall rt c, (forall r, frames RR (rt r)) -> frames RR (c_try rt c).
Proof.
  intros. unfold c_try. fr; auto using r_claim with rr; [apply (g_honor_any _ RR_po) | apply (g_honor_all _ RR_po)].
Qed.
Lemma r_r_try : forall n r, frames RR (r_try n r).
Proof. induction n; intros; cbn; fr; auto; apply (g_rloop _ RR_po); intros; apply r_c_try; auto. Qed.
Lemma r_release1 : forall n c r q b, frames RR (release1 n c r q b).
Proof. intros. unfold release1. fr; auto using r_r_try with rr. Qed.
Lemma r_release : forall n c a, frames RR (release n c a).
Proof. intros. unfold release. fr; auto using r_release1. Qed.
Lemma r_release_claimers : forall f n r mx, frames RR (release_claimers f n r mx).
Proof. induction n; intros r mx; cbn [release_claimers]; destruct mx as [[c p]|]; fr; auto using r_release. Qed.
Lemma r_res_release : forall n r q, frames RR (res_release n r q).
Proof. intros. unfold res_release. fr; auto using r_r_try, r_release_claimers. Qed.
Lemma r_set_cap : forall n r q, frames RR (set_cap n r q).
Proof. intros. unfold set_cap. fr; auto using r_r_try. Qed.
Lemma r_fail_time : forall sp, frames RR (fail_time sp). Proof. intros. unfold fail_time. fr. Qed.
#[export] Hint Resolve r_activate r_create r_set_remaining r_claim r_r_try r_release1 r_fail_time : rr.
Lemma r_request : forall n c args o f p u cap, frames RR (request n c args o f p u cap).
Proof.
  intros. unfold request, request1. fr; auto with rr. apply r_c_try. auto with rr.
Qed.
Lemma r_c_trywait : forall c, frames RR (c_trywait c).
Proof. intros. unfold c_trywait, leave_wait. fr; auto with rr. Qed.
Lemma r_s_trywait : forall l m, frames RR (s_trywait l m).
Proof. induction l; intros m; cbn; fr; auto using r_c_trywait. Qed.
Lemma r_st_set : forall st v, frames RR (st_set st v).
Proof. intros. unfold st_set, set_sval, st_trywait. fr; auto using r_s_trywait. Qed.
Lemma r_st_trigger : forall st v a m, frames RR (st_trigger st v a m).
Proof. intros. unfold st_trigger, set_sval, st_trywait. fr; auto using r_s_trywait. Qed.
Lemma r_leave_from : forall d, frames RR (leave_from d). Proof. intros. unfold leave_from. fr; auto with rr. Qed.
Lemma r_leave_to : forall d, frames RR (leave_to d). Proof. intros. unfold leave_to. fr; auto with rr. Qed.
Lemma r_give : forall d c, frames RR (give d c). Proof. intros. unfold give. fr; auto with rr. Qed.
#[export] Hint Resolve r_leave_from r_leave_to r_give r_c_trywait : rr.
Lemma r_item : forall n, (forall k c w, frames RR (item_enter n k c w)) /\ (forall k c, frames RR (item_leave n k c)).
Proof. induction n as [|n [IH1 IH2]]; split; intros; cbn; unfold set_kmav; fr; auto with rr. Qed.
Lemma r_item_enter : forall n k c w, frames RR (item_enter n k c w). Proof. intros. apply r_item. Qed.
Lemma r_item_leave : forall n k c, frames RR (item_leave n k c). Proof. intros. apply r_item. Qed.
#[export] Hint Resolve r_item_enter r_item_leave : rr.
Lemma r_to_try : forall n c i p ks, frames RR (to_try n c i p ks).
Proof. induction ks; cbn; fr; auto with rr. Qed.
Lemma r_rescan_items : forall n k d l, frames RR (rescan_items n k d l).
Proof. induction l; cbn; fr; auto with rr. Qed.
Lemma r_rescan : forall n k, frames RR (rescan n k).
Proof. intros. unfold rescan. fr; auto using r_rescan_items. Qed.
Lemma r_set_filter : forall n c f, frames RR (set_filter n c f).
Proof. intros. unfold set_filter. fr; auto using r_rescan. Qed.
Lemma r_rescan_to_loop : forall n k l, frames RR (rescan_to_loop n k l).
Proof. induction l; cbn; fr; auto with rr. Qed.
Lemma r_st_set_cap : forall n k cap, frames RR (st_set_cap n k cap).
Proof. intros. unfold st_set_cap, set_kmav. fr; auto using r_rescan_to_loop. Qed.
Lemma r_continue : forall n c, frames RR (continue n c).
Proof. intros. unfold continue. fr; auto with rr. Qed.
Lemma r_run : forall sp p u cap, frames RR (run sp p u cap).
Proof. intros. unfold run. fr; auto with rr. Qed.
#[export] Hint Resolve r_continue r_to_try : rr.

(** ** the lists of one component only shrink *)
Definition unrc (c : nat) (s : env) : Prop := unr (comps s c).
Definition Ru (c : nat) (s s' : env) : Prop := unrc c s -> unrc c s'.
Lemma Ru_po : forall c, preorder (Ru c). Proof. constructor; unfold Ru; auto. Qed.
Lemma Ru_comp : forall x c f s, (unr (comps s c) -> unr (f (comps s c))) -> Ru x s (m_comp c f s).
Proof. intros x c f s H K. unfold unrc. rewrite comps_m_comp. destruct (Nat.eqb_spec x c) as [->|]; auto. Qed.
Lemma Ru_same : forall x s s', comps s' = comps s -> Ru x s s'.
Proof. unfold Ru, unrc. intros x s s' -> H. auto. Qed.
Ltac fuf := first [ apply Ru_same; reflexivity | apply Ru_comp; unfold unr; cbn; solve [intuition congruence] ].
Ltac fu x := let P := constr:(Ru_po x) in fgo P; try (solve [fuf]).
Lemma u_q_enter : forall x q c p, frames (Ru x) (q_enter q c p). Proof. intros. unfold q_enter. fu x. Qed.
Lemma u_q_leave : forall x q c, frames (Ru x) (q_leave q c). Proof. intros. unfold q_leave. fu x. Qed.
Lemma u_q_prio : forall x q c, frames (Ru x) (q_prio q c). Proof. intros. unfold q_prio. fu x. Qed.
Lemma u_remove : forall x c, frames (Ru x) (remove c). Proof. intros. unfold remove. fu x. Qed.
Lemma u_reschedule : forall x c t p u cap, frames (Ru x) (reschedule c t p u cap).
Proof. intros. unfold reschedule, push. fu x. Qed.
Lemma u_c_try : forall x rt c, (forall r, frames (Ru x) (rt r)) -> frames (Ru x) (c_try rt c).
Proof.
  intros. unfold c_try, claim, leave_req. fu x; auto using u_q_prio, u_q_enter, u_q_leave, u_remove, u_reschedule;
   [apply (g_honor_any _ (Ru_po x)) | apply (g_honor_all _ (Ru_po x))].
Qed.
Lemma u_r_try : forall x n r, frames (Ru x) (r_try n r).
Proof. induction n; intros; cbn; fu x; auto; apply (g_rloop _ (Ru_po x)); intros; apply u_c_try; auto. Qed.
Lemma u_release1 : forall x n c r q b, frames (Ru x) (release1 n c r q b).
Proof. intros. unfold release1. fu x; auto using u_r_try, u_q_leave. Qed.

(** check_fail empties everything, if it returns normally *)
Lemma w_check_fail_unr : forall c s (X : exn -> env -> Prop), (forall e s', X e s') ->
  wp (check_fail c) (fun _ s' => unrc c s') X s.
Proof.
  intros c s X HX. unfold check_fail.
  assert (T : forall A (m : M A) s (Q : A -> env -> Prop), (forall a s', Q a s') -> wp m Q X s).
  { intros A m s' Q K. unfold wp. destruct (m s') as [s2 [a|e]]; auto. }
  apply wp_bind, wp_get, wp_bind, T. intros _ s1. apply wp_bind, wp_get, wp_bind.
  set (Rw := fun s s' : env => c_waits (comps s c) = [] -> c_waits (comps s' c) = []).
  set (Rf := fun s s' : env => c_from (comps s c) = [] -> c_from (comps s' c) = []).
  assert (Pw : preorder Rw) by (constructor; unfold Rw; auto).
  assert (Pf : preorder Rf) by (constructor; unfold Rf; auto).
  assert (Hw : forall f s, c_waits (f (comps s c)) = c_waits (comps s c) -> Rw s (m_comp c f s)).
  { unfold Rw. intros f z E. rewrite comps_same, E. auto. }
  assert (Hf : forall f s, c_from (f (comps s c)) = c_from (comps s c) -> Rf s (m_comp c f s)).
  { unfold Rf. intros f z E. rewrite comps_same, E. auto. }
  assert (A1 : wp (when (nonnil (c_waits (comps s1 c)))
     (mfor (map fst (c_waits (comps s1 c))) (fun st => l <- get (fun s => qs s (QWait st)) ;; when (inq c l) (q_leave (QWait st) c)) ;;;
      setc c (w_waits []) ;;; setc c (w_failed true))) (fun _ s' => c_waits (comps s' c) = []) X s1).
  { apply wp_when; intros C; [|apply nonnil_false; auto]. apply wp_bind, T. intros _ s2. wgo. rewrite !comps_same. reflexivity. }
  eapply wp_conseq; [exact A1 | cbv beta | auto]. intros _ s2 W2. apply wp_bind, wp_get, wp_bind.
  assert (A2 : wp (when (nonnil (c_from (comps s2 c))) (mfor (c_from (comps s2 c)) (fun k => q_leave (QFrom k) c) ;;;
      setc c (w_from []) ;;; setc c (w_failed true))) (fun _ s' => c_waits (comps s' c) = [] /\ c_from (comps s' c) = []) X s2).
  { apply wp_when; intros C; [|split; auto; apply nonnil_false; auto]. apply wp_bind.
    assert (F : frames Rw (mfor (c_from (comps s2 c)) (fun k => q_leave (QFrom k) c))).
    { unfold q_leave. fgo Pw. unfold Rw; cbn; auto. }
    eapply wp_conseq; [apply (frames_wp _ _ _ s2 F) | cbv beta | auto]. intros _ s3 W3. wgo. rewrite !comps_same. cbn.
    split; [apply (W3 W2) | reflexivity]. }
  eapply wp_conseq; [exact A2 | cbv beta | auto]. intros _ s3 (W3 & F3). apply wp_bind, wp_get.
  apply wp_when; intros C; [|unfold unrc, unr; repeat split; auto; apply nonnil_false; auto].
  apply wp_bind.
  assert (F : frames (fun a b => Rw a b /\ Rf a b) (mfor (c_to (comps s3 c)) (fun k => q_leave (QTo k) c))).
  { assert (P2 : preorder (fun a b => Rw a b /\ Rf a b)) by (constructor; unfold Rw, Rf; intuition).
    unfold q_leave. fgo P2. unfold Rw, Rf; cbn; auto. }
  eapply wp_conseq; [apply (frames_wp _ _ _ s3 F) | cbv beta | auto]. intros _ s4 (W4 & F4). wgo.
  unfold unrc, unr. rewrite !comps_same. cbn. repeat split; [apply (W4 W3) | apply (F4 F3)].
Qed.

Lemma w_rr : forall A (m : M A) (Q : A -> env -> Prop) s,
  frames RR m -> RI s -> (forall a s', RI s' -> Q a s') -> wp m Q (fun _ s' => RI s') s.
Proof. intros A m Q s F H K. eapply wp_conseq; [apply (frames_wp _ RR m s F) | |]; unfold RR; cbn; intros; auto. Qed.
Lemma RR_intro : forall A (m : M A), (forall s, RI s -> wp m (fun _ s' => RI s') (fun _ s' => RI s') s) -> frames RR m.
Proof. intros A m H s K. apply wp_fst. auto. Qed.
Lemma w_cf_R : forall c s (Q : unit -> env -> Prop), RI s ->
  (forall s', RI s' -> unrc c s' -> Q tt s') -> wp (check_fail c) Q (fun _ s' => RI s') s.
Proof.
  intros c s Q H K.
  eapply wp_conseq; [apply wp_and; [apply (w_check_fail_unr c s (fun _ _ => True)); auto
     | apply (frames_wp _ RR _ s (r_check_fail c))] | |]; cbv beta; unfold RR.
  - intros [] s' (A & B). auto.
  - tauto.
Qed.
Lemma RI_set : forall c f s, RI s -> unr (f (comps s c)) -> RI (m_comp c f s).
Proof. intros c f s H U. apply RR_comp; auto. intros _ _. auto. Qed.
Lemma unrc_comp : forall c f s, c_waits (f (comps s c)) = c_waits (comps s c) -> c_from (f (comps s c)) = c_from (comps s c) ->
  c_to (f (comps s c)) = c_to (comps s c) -> unrc c s -> unrc c (m_comp c f s).
Proof. intros c f s A B C H. unfold unrc, unr in *. rewrite comps_same, A, B, C. auto. Qed.
Lemma RI_unr : forall s c, RI s -> idle (c_status (comps s c)) -> unrc c s.
Proof. intros s c H I. apply (H c I). Qed.

Lemma r_passivate : forall c, frames RR (passivate c).
Proof.
  intros. apply RR_intro. intros s H. unfold passivate. apply wp_bind, wp_stat. apply wp_bind.
  assert (T : forall s', RI s' -> unrc c s' ->
    wp (setc c (w_sched PInf) ;;; setc c (w_status Passive)) (fun _ s' => RI s') (fun _ s' => RI s') s').
  { intros s' H' N'. wgo. apply RI_set; [apply RI_set; [auto | exact N'] |]. rewrite comps_same. exact N'. }
  apply wp_if; intros C.
  - apply steqb_iff in C. assert (U : unrc c s) by (apply RI_unr; auto; rewrite C; auto with idle).
    apply wp_setc. apply T; [apply RI_set; auto | apply unrc_comp; auto].
  - apply wp_bind. apply w_rr; auto with rr. intros _ s1 H1. apply wp_bind. apply w_rr; auto with rr. intros _ s2 H2.
    apply wp_bind. apply w_cf_R; auto. intros s3 H3 N3. apply wp_bind, wp_get, wp_setc.
    apply T; [apply RI_set; auto | apply unrc_comp; auto].
Qed.
Lemma r_standby : forall c, frames RR (standby c).
Proof.
  intros. apply RR_intro. intros s H. unfold standby. apply wp_bind, wp_stat. apply wp_bind.
  assert (T : forall s', RI s' -> unrc c s' ->
    wp (n <- get now ;; setc c (w_sched (Fin n)) ;;; put (fun s => s_stby (stby s ++ [c]) s) ;;;
        setc c (w_status Standby)) (fun _ s' => RI s') (fun _ s' => RI s') s').
  { intros s' H' N'. wgo. apply RI_set.
    - apply (RR_same (m_comp c (w_sched (Fin (now s'))) s')); [reflexivity|]. apply RI_set; auto.
    - cbn. unfold upd. rewrite Nat.eqb_refl. exact N'. }
  apply wp_when; intros C.
  - apply wp_bind. apply w_rr; auto with rr. intros _ s1 H1. apply wp_bind. apply w_rr; auto with rr. intros _ s2 H2.
    apply wp_bind. apply w_rr; auto with rr. intros _ s3 H3. apply w_cf_R; auto.
  - apply negb_false_iff, steqb_iff in C. apply T; auto. apply RI_unr; auto. rewrite C. auto with idle.
Qed.
Lemma r_rel_all : forall n c l (Q : unit -> env -> Prop) s, RI s -> unrc c s -> (forall s', RI s' -> unrc c s' -> Q tt s') ->
  wp (mfor l (fun r => release1 n c r None false)) Q (fun _ s' => RI s') s.
Proof.
  intros n c l Q s H U K.
  eapply wp_conseq; [apply wp_mfor_inv with (I := fun s' => RI s' /\ unrc c s') (X := fun _ s' => RI s'); auto | cbv beta | cbv beta; auto].
  - intros r s2 _ (H2 & N2). eapply wp_conseq; [apply wp_and;
      [apply (frames_wp _ RR _ s2 (r_release1 n c r None false)) | apply (frames_wp _ _ _ s2 (u_release1 c n c r None false))] | |]; cbv beta;
      unfold RR, Ru; intuition.
  - intros [] s2 (H2 & N2). auto.
Qed.
Lemma r_cancel : forall n c, frames RR (cancel n c).
Proof.
  intros. apply RR_intro. intros s H. unfold cancel. apply wp_bind, wp_stat.
  apply wp_if; intros C1; [apply wp_ret; auto|]. apply wp_bind.
  assert (T : forall s', RI s' -> unrc c s' ->
    wp (cl <- get (fun s => c_claims (comps s c)) ;;
        mfor (keys cl) (fun r => release1 n c r None false) ;;;
        setc c (w_sched PInf) ;;; setc c (w_status Data)) (fun _ s' => RI s') (fun _ s' => RI s') s').
  { intros s' H' N'. apply wp_bind, wp_get. apply wp_bind. apply r_rel_all; auto. intros s2 H2 N2. wgo.
    apply RI_set; [apply RI_set; auto |]. rewrite comps_same. exact N2. }
  apply wp_when; intros C2.
  - apply wp_bind. apply w_rr; auto with rr. intros _ s1 H1. apply w_cf_R; auto.
  - apply negb_false_iff, steqb_iff in C2. apply T; auto. apply RI_unr; auto. rewrite C2. auto with idle.
Qed.
Lemma r_terminate : forall n c s, RI s -> c_status (comps s c) = Current ->
  wp (terminate n c) (fun _ s' => RI s') (fun _ s' => RI s') s.
Proof.
  intros n c s H S. unfold terminate.
  assert (N : unrc c s) by (apply RI_unr; auto; rewrite S; auto with idle).
  apply wp_bind, wp_get. apply wp_bind. apply r_rel_all; auto. intros s2 H2 N2. wgo.
  apply RI_set; [|rewrite !comps_same; exact N2]. apply RI_set; [|rewrite !comps_same; exact N2].
  apply RI_set; [|rewrite !comps_same; exact N2]. apply RI_set; auto.
Qed.
Lemma r_resume : forall c a p u s, EL s -> RI s -> wp (resume c a p u) (fun _ s' => RI s') (fun _ s' => RI s') s.
Proof.
  intros c a p u s L H. unfold resume. apply wp_bind, wp_stat.
  apply wp_if; intros C1; [|apply wp_raise; auto]. apply steqb_iff in C1.
  assert (IS : c_istat (comps s c) = Scheduled) by (apply (proj2 (L c)); auto).
  apply wp_bind, wp_setc. apply wp_bind, wp_get.
  match goal with |- wp _ _ _ ?s1 => set (s1' := s1) end.
  assert (H1 : RI s1') by (apply RR_comp; auto).
  assert (I1 : c_istat (comps s1' c) = Scheduled) by (unfold s1'; rewrite comps_same; auto).
  clearbody s1'.
  apply wp_if; intros C2; [apply wp_ret; auto|].
  apply wp_bind, wp_setc. apply wp_bind, wp_stat.
  match goal with |- wp _ _ _ ?s1 => set (s2 := s1) end.
  assert (H2 : RI s2).
  { apply RR_comp; auto. intros _. rewrite I1. apply okr_status. auto with idle. }
  clearbody s2. apply wp_if; intros C3; [|apply wp_raise; auto].
  apply wp_bind, wp_get. apply w_rr; auto with rr.
Qed.

(** everything but component c *)
Definition RIx (c : nat) (s : env) : Prop := forall x, x <> c -> okr (comps s x).
Lemma RIx_comp : forall c f s, RIx c s -> RIx c (m_comp c f s).
Proof. intros c f s H x N. rewrite comps_diff by auto. auto. Qed.
Lemma RI_RIx : forall c s, RI s -> RIx c s. Proof. intros c s H x _. auto. Qed.
Lemma RIx_RI : forall c s, RIx c s -> okr (comps s c) -> RI s.
Proof. intros c s H K x. destruct (Nat.eq_dec x c); subst; auto. Qed.
Definition RRx (c : nat) (s s' : env) : Prop := RIx c s -> RIx c s'.
Lemma RRx_po : forall c, preorder (RRx c). Proof. constructor; unfold RRx; auto. Qed.
Lemma RRx_same : forall c s s', comps s' = comps s -> RRx c s s'.
Proof. unfold RRx, RIx. intros c s s' -> H. auto. Qed.
(** honest about c: if c is not idle any registration is fine *)
Lemma okr_nonidle : forall x, ~ idle (c_status x) -> okr x. Proof. intros x N I. tauto. Qed.

(** the start of request, wait, from_store, to_store: unless current, c is taken off everything *)
Lemma r_prep : forall c s (Q : unit -> env -> Prop), RI s -> (forall s', RI s' -> unrc c s' -> Q tt s') ->
  forall st, st = c_status (comps s c) ->
  wp (when (negb (steqb st Current)) (check_notdata c ;;; check_notmain c ;;; remove c ;;; check_fail c)) Q (fun _ s' => RI s') s.
Proof.
  intros c s Q H K st ->. apply wp_when; intros C.
  - apply wp_bind. apply w_rr; auto with rr. intros _ s1 H1. apply wp_bind. apply w_rr; auto with rr. intros _ s2 H2.
    apply wp_bind. apply w_rr; auto with rr. intros _ s3 H3. apply w_cf_R; auto.
  - apply negb_false_iff, steqb_iff in C. apply K; auto. apply RI_unr; auto. rewrite C. auto with idle.
Qed.
(** after a loop / call that only touches c *)
Lemma r_tail : forall A c (m : M A) (Q : A -> env -> Prop) s, frames (RRx c) m -> RIx c s -> (forall a s', RIx c s' -> Q a s') ->
  wp m Q (fun _ _ => True) s.
Proof. intros A c m Q s F H K. eapply wp_conseq; [apply (frames_wp _ _ _ s F) | |]; cbv beta; unfold RRx; auto. Qed.
Lemma rx_c_trywait : forall c, frames (RRx c) (c_trywait c).
Proof.
  intros c. unfold c_trywait, leave_wait, q_leave, remove, reschedule, push.
  fgo (RRx_po c); try (apply RRx_same; reflexivity); intros H; apply RIx_comp; auto.
Qed.
(** c_trywait either does nothing or clears the waits *)
Lemma w_trywait_waits : forall c s,
  wp (c_trywait c) (fun _ s' => s' = s \/ c_waits (comps s' c) = []) (fun _ _ => True) s.
Proof.
  intros c s. unfold c_trywait. apply wp_bind, wp_stat. apply wp_if; intros C; [apply wp_ret; auto|].
  apply wp_bind, wp_get. apply wp_if; intros B; [|apply wp_ret; auto].
  apply wp_bind, wp_get, wp_bind. eapply wp_conseq; [apply wp_of_fst with (I := fun _ => True); auto | cbv beta | auto].
  intros _ s1 _. apply wp_bind, wp_setc.
  set (Rw := fun s s' : env => c_waits (comps s c) = [] -> c_waits (comps s' c) = []).
  assert (Pw : preorder Rw) by (constructor; unfold Rw; auto).
  match goal with |- wp ?m _ _ ?z => assert (W : c_waits (comps z c) = []) by (rewrite comps_same; reflexivity);
     assert (F : frames Rw m) end.
  { unfold remove, reschedule, push. fgo Pw; unfold Rw; cbn; try (rewrite ?upd_same; auto); unfold upd; destruct (Nat.eqb c c); auto. }
  eapply wp_conseq; [apply (frames_wp _ _ _ _ F) | |]; cbv beta; auto.
Qed.
Definition unft (x : comp) : Prop := c_from x = [] /\ c_to x = [].
Definition Rft (c : nat) (s s' : env) : Prop := unft (comps s c) -> unft (comps s' c).
Lemma Rft_po : forall c, preorder (Rft c). Proof. constructor; unfold Rft; auto. Qed.
Lemma Rft_comp : forall c f s, c_from (f (comps s c)) = c_from (comps s c) -> c_to (f (comps s c)) = c_to (comps s c) -> Rft c s (m_comp c f s).
Proof. intros c f s A B. unfold Rft, unft. rewrite comps_same, A, B. auto. Qed.
Lemma r_wait_end : forall c t prio urgent cap s, RIx c s -> unft (comps s c) ->
  wp (c_trywait c ;;; ws' <- get (fun s => c_waits (comps s c)) ;;
      when (nonnil ws') (setc c (w_status Waiting) ;;; reschedule c t prio urgent cap)) (fun _ s' => RI s') (fun _ _ => True) s.
Proof.
  intros c t prio urgent cap s H U. apply wp_bind.
  assert (F : frames (Rft c) (c_trywait c)).
  { unfold c_trywait, leave_wait, q_leave, remove, reschedule, push.
    fgo (Rft_po c); try (apply Rft_comp; reflexivity); unfold Rft; cbn; auto. }
  eapply wp_conseq; [apply wp_and; [apply (frames_wp _ _ _ s F) | apply (frames_wp _ _ _ s (rx_c_trywait c))] | cbv beta | auto].
  intros b s1 (A & B). specialize (A U). specialize (B H).
  apply wp_bind, wp_get. apply wp_when; intros C.
  - apply wp_bind, wp_setc. eapply wp_conseq; [apply w_rr with (Q := fun _ s' => RI s'); auto with rr | |]; auto.
    apply (RIx_RI c); [apply RIx_comp; auto|]. rewrite comps_same. apply okr_status. auto with idle.
  - apply nonnil_false in C. apply (RIx_RI c); auto. intros _. unfold unr, unft in *. tauto.
Qed.
Lemma r_wait : forall c a al f p u cap s, RI s ->
  wp (wait c a al f p u cap) (fun _ s' => RI s') (fun _ _ => True) s.
Proof.
  intros c a al f p u cap s H. unfold wait. apply wp_bind, wp_setc, wp_bind, wp_stat, wp_bind.
  eapply wp_conseq; [apply r_prep with (c := c) (Q := fun _ s' => RI s' /\ unrc c s'); auto; apply RR_comp; auto | cbv beta | auto].
  intros _ s1 (H1 & U1). apply wp_bind, wp_setc, wp_bind, wp_setc, wp_bind.
  match goal with |- wp _ _ _ ?z => set (s2 := z) end.
  assert (H2 : RIx c s2) by (do 2 apply RIx_comp; apply RI_RIx; auto).
  assert (U2 : unft (comps s2 c)) by (unfold s2; rewrite !comps_same; destruct U1 as (_ & U1); exact U1).
  clearbody s2. 
  set (RW := fun a b => RRx c a b /\ Rft c a b).
  assert (PW : preorder RW) by (constructor; unfold RW, RRx, Rft; intuition).
  assert (SC : forall g, (forall x, c_from (g x) = c_from x) -> (forall x, c_to (g x) = c_to x) -> forall s, RW s (m_comp c g s)).
  { intros g A B s'. split; [intros K; apply RIx_comp; auto | apply Rft_comp; auto]. }
  assert (SM : forall s s', comps s' = comps s -> RW s s').
  { intros z z' E. split; [apply RRx_same; auto | unfold Rft; rewrite E; auto]. }
  assert (F : frames RW (mfor a (wait1 c))).
  { apply (fr_mfor _ PW). intros [[st g] pp]. unfold wait1, q_enter. fgo PW; auto. }
  assert (F0 : frames RW (fail_time f)) by (unfold fail_time; fgo PW).
  eapply wp_conseq; [apply (frames_wp _ _ _ s2 F0) | cbv beta | auto]. intros t s3 (A3 & B3). specialize (A3 H2). specialize (B3 U2).
  apply wp_bind. eapply wp_conseq; [apply (frames_wp _ _ _ s3 F) | cbv beta | auto]. intros _ s4 (A4 & B4). specialize (A4 A3). specialize (B4 B3).
  apply wp_bind, wp_get, wp_bind, wp_when; intros; [apply wp_raise; auto|].
  apply wp_bind, wp_get, wp_bind, wp_setc. apply r_wait_end; [apply RIx_comp; auto | rewrite comps_same; exact B4].
Qed.
Lemma r_wait_for : forall c cd sts f p u cap s, RI s ->
  wp (wait_for c cd sts f p u cap) (fun _ s' => RI s') (fun _ _ => True) s.
Proof.
  intros c cd sts f p u cap s H. unfold wait_for. apply wp_bind, wp_stat, wp_bind.
  eapply wp_conseq; [apply r_prep with (c := c) (Q := fun _ s' => RI s' /\ unrc c s'); auto | cbv beta | auto].
  intros _ s1 (H1 & U1). apply wp_bind, wp_setc, wp_bind.
  match goal with |- wp _ _ _ ?z => set (s2 := z) end.
  assert (H2 : RIx c s2) by (apply RIx_comp; apply RI_RIx; auto).
  assert (U2 : unft (comps s2 c)) by (unfold s2; rewrite !comps_same; destruct U1 as (_ & U1); exact U1).
  clearbody s2. 
  set (RW := fun a b => RRx c a b /\ Rft c a b).
  assert (PW : preorder RW) by (constructor; unfold RW, RRx, Rft; intuition).
  assert (SC : forall g, (forall x, c_from (g x) = c_from x) -> (forall x, c_to (g x) = c_to x) -> forall s, RW s (m_comp c g s)).
  { intros g A B s'. split; [intros K; apply RIx_comp; auto | apply Rft_comp; auto]. }
  assert (SM : forall s s', comps s' = comps s -> RW s s').
  { intros z z' E. split; [apply RRx_same; auto | unfold Rft; rewrite E; auto]. }
  match goal with |- wp (fail_time f) (fun t s3 => wp (bind ?m1 (fun _ => bind ?m2 _)) _ _ _) _ _ =>
    assert (F1 : frames RW m1) by (fgo PW; auto); assert (F2 : frames RW m2) by (unfold q_enter; fgo PW; auto) end.
  assert (F0 : frames RW (fail_time f)) by (unfold fail_time; fgo PW).
  eapply wp_conseq; [apply (frames_wp _ _ _ s2 F0) | cbv beta | auto]. intros t s3 (A3 & B3). specialize (A3 H2). specialize (B3 U2).
  apply wp_bind. eapply wp_conseq; [apply (frames_wp _ _ _ s3 F1) | cbv beta | auto]. intros _ s4 (A4 & B4). specialize (A4 A3). specialize (B4 B3).
  apply wp_bind. eapply wp_conseq; [apply (frames_wp _ _ _ s4 F2) | cbv beta | auto]. intros _ s5 (A5 & B5). specialize (A5 A4). specialize (B5 B4).
  apply wp_bind, wp_get, wp_bind, wp_when; intros; [apply wp_raise; auto|].
  apply wp_bind, wp_get, wp_bind, wp_setc. apply r_wait_end; [apply RIx_comp; auto | rewrite comps_same; exact B5].
Qed.
Lemma r_from_store : forall n c ks f key rp fl fp u cap s, RI s ->
  wp (from_store n c ks f key rp fl fp u cap) (fun _ s' => RI s') (fun _ _ => True) s.
Proof.
  intros n c ks f key rp fl fp u cap s H. unfold from_store. apply wp_bind, wp_when; intros _; [apply wp_raise; auto|].
  apply wp_bind, wp_stat, wp_bind.
  eapply wp_conseq; [apply r_prep with (c := c) (Q := fun _ s' => RI s' /\ unrc c s'); auto | cbv beta | auto].
  intros _ s1 (H1 & U1). apply wp_bind. eapply wp_conseq; [apply w_rr with (Q := fun _ s' => RI s'); auto with rr | cbv beta | auto].
  intros t s2 H2. apply wp_bind, wp_setc, wp_bind, wp_get.
  match goal with |- wp _ _ _ ?z => set (s3 := z) end.
  assert (H3 : RI s3) by (apply RR_comp; auto). clearbody s3.
  destruct (find_item _ _ _ _ _ _) as [[i|] k].
  - eapply wp_conseq; [apply w_rr with (Q := fun _ s' => RI s'); auto | |]; auto. fr; auto with rr.
  - apply wp_bind, wp_setc, wp_bind.
    assert (F : frames (RRx c) (mfor ks (fun k0 => q_enter (QFrom k0) c rp))).
    { unfold q_enter. fgo (RRx_po c). apply RRx_same; reflexivity. }
    eapply r_tail; [exact F | apply RIx_comp, RI_RIx; auto | intros _ s4 H4].
    apply wp_bind, wp_setc, wp_bind, wp_setc, wp_bind, wp_setc.
    eapply wp_conseq; [apply w_rr with (Q := fun _ s' => RI s'); auto with rr | |]; auto.
    apply (RIx_RI c); [do 3 apply RIx_comp; auto|]. rewrite !comps_same. apply okr_nonidle. cbn. auto with idle.
Qed.
Lemma r_to_store : forall n c ks i rp p fl fp u cap s, RI s ->
  wp (to_store n c ks i rp p fl fp u cap) (fun _ s' => RI s') (fun _ _ => True) s.
Proof.
  intros n c ks i rp p fl fp u cap s H. unfold to_store. apply wp_bind, wp_when; intros _; [apply wp_raise; auto|].
  apply wp_bind, wp_stat, wp_bind.
  eapply wp_conseq; [apply r_prep with (c := c) (Q := fun _ s' => RI s' /\ unrc c s'); auto | cbv beta | auto].
  intros _ s1 (H1 & U1). apply wp_bind. eapply wp_conseq; [apply w_rr with (Q := fun _ s' => RI s'); auto with rr | cbv beta | auto].
  intros t s2 H2. apply wp_bind, wp_setc, wp_bind.
  eapply wp_conseq; [apply w_rr with (Q := fun _ s' => RI s'); auto with rr; apply RR_comp; auto | cbv beta | auto].
  intros b s3 H3. apply wp_if; intros _; [apply wp_ret; auto|]. apply wp_bind.
  eapply wp_conseq; [apply w_rr with (Q := fun _ s' => RI s'); auto | cbv beta | auto]. { fr; auto with rr. }
  intros _ s4 H4. apply wp_bind, wp_setc, wp_bind, wp_setc, wp_bind, wp_setc, wp_bind, wp_setc.
  eapply wp_conseq; [apply w_rr with (Q := fun _ s' => RI s'); auto with rr | |]; auto.
  apply (RIx_RI c); [do 4 apply RIx_comp; apply RI_RIx; auto|]. rewrite !comps_same. apply okr_nonidle. cbn. auto with idle.
Qed.

(** main is never registered *)
Section NoUnr.
  Context (x : nat).
  Ltac f := fu x; auto using u_q_leave, u_q_enter, u_remove, u_release1, u_reschedule, u_r_try.
  Lemma u_other : forall c f s, c <> x -> Ru x s (m_comp c f s).
  Proof. intros c f s H K. unfold unrc. rewrite comps_diff by auto. auto. Qed.
  Lemma u_check_fail : forall c, frames (Ru x) (check_fail c).
  Proof. intros. unfold check_fail, leave_req. f. Qed.
  Lemma u_activate : forall c a d p u pr kr kw cap, frames (Ru x) (activate c a d p u pr kr kw cap).
  Proof. intros. unfold activate. f; auto using u_check_fail. Qed.
  Lemma u_request : forall n c args o g p u cap, frames (Ru x) (request n c args o g p u cap).
  Proof.
    intros. unfold request, check_notdata, check_notmain, fail_time, request1. f; auto using u_check_fail, u_activate.
    apply u_c_try. intros; f.
  Qed.
  Lemma u_c_trywait : forall c, frames (Ru x) (c_trywait c).
  Proof. intros. unfold c_trywait, leave_wait. f. Qed.
  Lemma u_s_trywait : forall l m, frames (Ru x) (s_trywait l m).
  Proof. induction l; intros m; cbn; f; auto using u_c_trywait. Qed.
  Lemma u_item : forall n, (forall k c w, frames (Ru x) (item_enter n k c w)) /\ (forall k c, frames (Ru x) (item_leave n k c)).
  Proof. induction n as [|n [IH1 IH2]]; split; intros; cbn; unfold set_kmav, leave_from, leave_to, give; f. Qed.
  Lemma u_item_enter : forall n k c w, frames (Ru x) (item_enter n k c w). Proof. intros. apply u_item. Qed.
  Lemma u_item_leave : forall n k c, frames (Ru x) (item_leave n k c). Proof. intros. apply u_item. Qed.
  Lemma u_to_try : forall n c i p ks, frames (Ru x) (to_try n c i p ks).
  Proof. induction ks; cbn; f; auto using u_item_enter. Qed.
  Lemma u_rescan_items : forall n k d l, frames (Ru x) (rescan_items n k d l).
  Proof. induction l; cbn; unfold leave_from, give; f; auto using u_item_leave. Qed.
  Lemma u_rescan : forall n k, frames (Ru x) (rescan n k).
  Proof. intros. unfold rescan. f; auto using u_rescan_items. Qed.
  Lemma u_rescan_to_loop : forall n k l, frames (Ru x) (rescan_to_loop n k l).
  Proof. induction l; cbn; unfold leave_to; f; auto using u_item_enter. Qed.
  Lemma u_release_claimers : forall g n r mx, frames (Ru x) (release_claimers g n r mx).
  Proof. induction n; intros r mx; cbn [release_claimers]; destruct mx as [[c p]|]; unfold release; f. Qed.
  Lemma u_step : forall n, frames (Ru x) (step n).
  Proof. intros. unfold step, step_event, continue. f; auto using u_check_fail. Qed.
  Definition registers (o : op) (c : nat) : Prop :=
    match o with
    | OWait d _ _ _ _ _ _ | OWaitFor d _ _ _ _ _ _ | OFromStore d _ _ _ _ _ _ _ _ | OToStore d _ _ _ _ _ _ _ _ => d = c
    | _ => False end.
  Lemma u_exec : forall n o, ~ registers o x -> frames (Ru x) (exec n o).
  Proof.
    intros n o H. destruct o; cbn [exec registers] in *;
      auto using u_activate, u_request, u_item_enter, u_item_leave, u_rescan, u_step.
    - unfold create. f.
    - unfold hold, check_notdata. f; auto using u_check_fail.
    - unfold passivate, check_notdata. f; auto using u_check_fail.
    - unfold interrupt, check_notdata. f; auto using u_check_fail.
    - unfold resume. f.
    - unfold cancel. f; auto using u_check_fail.
    - unfold standby, check_notdata, check_notmain. f; auto using u_check_fail.
    - unfold set_remaining. f.
    - unfold release. f.
    - unfold res_release. f; auto using u_release_claimers.
    - unfold set_cap. f.
    - unfold wait, wait1, check_notdata, check_notmain, fail_time. f; auto using u_check_fail, u_c_trywait, u_other.
    - unfold wait_for, check_notdata, check_notmain, fail_time. f; auto using u_check_fail, u_c_trywait, u_other.
    - unfold st_set, set_sval, st_trywait. f; auto using u_s_trywait.
    - unfold st_trigger, set_sval, st_trywait. f; auto using u_s_trywait.
    - unfold from_store, check_notdata, check_notmain, fail_time. f; auto using u_check_fail, u_item_leave, u_other.
    - unfold to_store, check_notdata, check_notmain, fail_time. f; auto using u_check_fail, u_to_try, u_other.
    - unfold st_set_cap, set_kmav. f; auto using u_rescan_to_loop.
    - unfold set_filter. f; auto using u_rescan.
    - f.
    - f.
    - unfold reset_now. f.
    - unfold terminate. f.
    - unfold run. f.
  Qed.
End NoUnr.

Lemma r_step : forall n s, RI s -> unrc main s -> wp (step n) (fun _ s' => RI s') (fun _ _ => True) s.
Proof.
  intros n s H U. apply w_step.
  - intros c t SK PD ST. split; auto. intros _.
    eapply wp_conseq; [apply w_rr with (Q := fun _ s' => RI s'); auto with rr | |]; auto.
    match goal with |- RI (s_cur _ ?z) => apply (RR_same z); [reflexivity|] end.
    assert (K : unrc c s) by (apply RI_unr; auto; rewrite ST; auto with idle).
    apply RI_set; [apply RI_set; [apply (RR_same s); auto | exact K] | rewrite comps_same; exact K].
  - intros _.
    assert (C0 : comps (shuffle (dropped s)) = comps s).
    { unfold shuffle, dropped. destruct (c_skip _); [|destruct (pend s)]; destruct (nonnil _); reflexivity. }
    split.
    + intros e l' EP. cbv zeta.
      assert (K : RIx (e_c e) (disp (e_c e) (taken e l' (shuffle (dropped s))))).
      { intros x N. unfold disp. rewrite !comps_diff by auto. cbn. unfold upd. rewrite C0. destruct (Nat.eqb_spec x (e_c e)); [congruence | apply H]. }
      split.
      * intros E. apply (RR_same (disp (e_c e) (taken e l' (shuffle (dropped s))))); [reflexivity|]. apply (RIx_RI (e_c e)); auto. intros _.
        unfold disp. rewrite !comps_same. cbn. unfold upd. rewrite C0, Nat.eqb_refl. cbn. rewrite E. exact U.
      * intros _. apply wp_bind.
        assert (F : frames (RRx (e_c e)) (check_fail (e_c e))).
        { unfold check_fail, leave_req, q_leave. fgo (RRx_po (e_c e)); try (apply RRx_same; reflexivity); intros Z; apply RIx_comp; auto. }
        eapply wp_conseq; [apply wp_and; [apply (w_check_fail_unr (e_c e) _ (fun _ _ => True)); auto | apply (frames_wp _ _ _ _ F)] | cbv beta | auto].
        intros _ s2 (U2 & K2). specialize (K2 K).
        eapply wp_conseq; [apply w_rr with (Q := fun _ s' => RI s'); auto with rr | |]; auto.
        apply (RIx_RI (e_c e)); auto. intros _. exact U2.
    + intros E. apply (RR_same (disp main (emptied (shuffle (dropped s))))); [reflexivity|].
      assert (C1 : comps (emptied (shuffle (dropped s))) = comps (m_comp main (w_onev false) (shuffle (dropped s)))).
      { unfold emptied. destruct (eoe _); reflexivity. }
      apply (RIx_RI main).
      * intros x N. unfold disp. rewrite !comps_diff by auto. cbn. rewrite C1. rewrite comps_diff by auto. rewrite C0. apply H.
      * intros _. unfold disp. rewrite !comps_same. cbn. rewrite C1. rewrite comps_same, C0. exact U.
Qed.

(** ** Calls that keep the registrations in order even if they raise *)
Definition calm (o : op) : Prop :=
  match o with
  | ORequest _ _ _ _ _ _ _ | OWait _ _ _ _ _ _ _ | OWaitFor _ _ _ _ _ _ _ | OFromStore _ _ _ _ _ _ _ _ _ | OToStore _ _ _ _ _ _ _ _ _
  | OStoreCap _ _ | ORescan _ | OFilter _ _ | OStep | OEnd => False
  | _ => True
  end.
Lemma r_exec : forall n o s, EL s -> RI s -> unrc main s -> wf s o ->
  wp (exec n o) (fun _ s' => RI s') (fun _ s' => calm o -> RI s') s.
Proof.
  intros n o s L H U (_ & W).
  assert (G : forall m : M unit, frames RR m -> wp m (fun _ s' => RI s') (fun _ s' => calm o -> RI s') s).
  { intros m F. eapply wp_conseq; [apply (frames_wp _ RR m s F) | |]; unfold RR; auto. }
  assert (G2 : forall m : M unit, ~ calm o -> wp m (fun _ s' => RI s') (fun _ _ => True) s -> wp m (fun _ s' => RI s') (fun _ s' => calm o -> RI s') s).
  { intros m T F. eapply wp_conseq; [exact F | |]; cbv beta; tauto. }
  destruct o; cbn [exec] in *;
    try (apply G; solve [auto using r_create, r_set_remaining, r_run, r_activate, r_hold, r_passivate, r_interrupt, r_standby,
        r_release, r_res_release, r_set_cap, r_st_set, r_st_trigger, r_request,
        r_item_enter, r_item_leave, r_st_set_cap, r_rescan, r_set_filter, r_cancel
       | unfold reset_now; fr]).
  - eapply wp_conseq; [apply r_resume; auto | |]; cbv beta; auto.
  - apply G2; [tauto | apply r_wait; auto].
  - apply G2; [tauto | apply r_wait_for; auto].
  - apply G2; [tauto | apply r_from_store; auto].
  - apply G2; [tauto | apply r_to_store; auto].
  - apply G2; [tauto | apply r_step; auto].
  - apply wp_bind, wp_get. eapply wp_conseq; [apply r_terminate; tauto | |]; cbv beta; auto.
Qed.
