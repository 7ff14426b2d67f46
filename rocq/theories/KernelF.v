(** No grantable request is left waiting: every call keeps it so. *)
From Coq Require Import QArith Lqa List Bool Arith ZArith Lia.
From Verif Require Import Base Kernel Wp KernelE KernelL KernelX KernelT KernelU KernelR KernelQ KernelA KernelB KernelC KernelD.
Import ListNotations.
Open Scope Q_scope.
Local Arguments keys : simpl never.

Definition Ex (s : env) : nat -> nat -> Prop := fun _ r => exc s r = true.
Definition notry (s : env) : Prop := forall r, r_trying (rsc s r) = false.
(** the state between two calls *)
Definition Rest (s : env) : Prop := J s /\ SS (Ex s) s /\ notry s.
Definition anyl (l : lab) : Prop := True.
Lemma Ex_sm : forall s s', sm s s' -> forall c r, Ex s' c r <-> Ex s c r.
Proof. intros s s' S c r. unfold Ex. rewrite (sm_exc _ _ _ S). tauto. Qed.
Section Calls.
Context (Hd : nat -> Prop).
Local Notation fpath := (fpath Hd).
Definition Post (s0 s : env) : Prop := J s /\ SS (Ex s0) s /\ sm s0 s /\ fpath anyl s0 s.
Lemma Rest_Post : forall s, Rest s -> Post s s.
Proof. intros s (A & B & C). exact (conj A (conj B (conj (sm_refl s) (fp_nil Hd _ s)))). Qed.
Lemma Post_Rest : forall s0 s, Rest s0 -> Post s0 s -> Rest s.
Proof.
  intros s0 s (_ & _ & N) (A & B & C & D). split; [auto|]. split.
  - eapply SS_weak; [|exact B]. intros c r _ _ H. apply (Ex_sm s0 s); auto.
  - intros r. destruct C as (C & _). destruct (C r) as (_ & ->). apply N.
Qed.
Lemma Rest_OKD : forall s, notry s -> OKD (Ex s) s.
Proof. intros s N r c [E|E]; [exact E | rewrite N in E; discriminate]. Qed.
Lemma Post_tame1 : forall s0 s s', notry s0 -> Post s0 s -> tame None s s' -> GI none s' -> keepB Hd s s' -> Post s0 s'.
Proof.
  intros s0 s s' N (A & B & C & D) T G KB. pose proof (tame_sm _ _ _ T) as SM.
  split; [eapply tame_J; eauto|]. split; [|split; [eapply sm_trans; eauto|]].
  - apply (tame_SS _ s); auto. intros r c E. apply (Ex_sm s0 s); auto.
  - eapply fpath_trans; [exact D|]. apply fpath_quiet; auto; [exact Logic.I | apply (j_g _ A) | apply (ta_q _ _ T)].
Qed.
Lemma Post_tame : forall A (m : M A) c s0 s (Q : A -> env -> Prop), notry s0 -> Hd c -> frames (kb c) m -> frames (tame None) m -> frames (RG none) m -> Post s0 s ->
  (forall a s', Post s0 s' -> Q a s') -> wp m Q (fun _ _ => True) s.
Proof.
  intros A m c s0 s Q N HC F0 F1 F2 P K. pose proof (frames_wp _ _ m s F1) as W1. pose proof (frames_wp _ _ m s F2) as W2. pose proof (frames_wp _ _ m s F0) as W0.
  eapply wp_conseq; [apply (wp_and _ _ _ _ _ _ _ W0 (wp_and _ _ _ _ _ _ _ W1 W2)) | |]; cbv beta; auto. intros a s' (KB & T & RGs). apply K.
  eapply Post_tame1; eauto; [apply RGs, (j_g _ (proj1 P)) | apply (keepB_kb _ c); auto].
Qed.
(** a release or a change of capacity, then Resource._tryrequest *)
Lemma Post_try : forall n r s0 s, notry s0 -> J s -> SS (plusr (Ex s0) r) s -> sm s0 s -> fpath anyl s0 s ->
  wp (r_try n r) (fun _ s' => Post s0 s') (fun _ _ => True) s.
Proof.
  intros n r s0 s N JS S SM F. eapply wp_conseq; [apply (w_r_try Hd n r (Ex s0) s) | |]; cbv beta; auto.
  - split; [auto|]. split; [apply (sm_OKD _ _ _ SM), Rest_OKD; auto|]. split; [auto|]. intros _ c E. rewrite (sm_exc _ _ _ SM). exact E.
  - intros _ s' (J' & S' & SM' & F'). split; [auto|]. split; [auto|]. split; [eapply sm_trans; eauto|]. eapply fpath_trans; [exact F|].
    eapply fpath_weak; [|exact F']. intros; exact Logic.I.
Qed.
(** ** the changes that make room *)
Lemma free_touch : forall c r v q0 b s s' (D : nat -> nat -> Prop), lstep (LFree c r v q0 b) s s' -> GI none s' -> J s -> (forall x d, exc s x = true -> D d x) ->
  J s' /\ sm s s' /\ (SS D s -> SS (plusr D r) s') /\
  (forall x, x <> r -> rsc s' x = rsc s x) /\ (forall x, qs s' (QReq x) = qs s (QReq x)) /\ (forall d, w_claims [] (comps s' d) = w_claims [] (comps s d)).
Proof.
  intros c r v q0 b s s' D L G' [G A M] X. pose proof (AM_step _ _ _ L G A) as A'. pose proof L as (AL & _ & _ & GV).
  assert (CP : forall d, w_claims [] (comps s' d) = w_claims [] (comps s d)).
  { intros d. destruct (Nat.eq_dec d c) as [->|N]; [|rewrite (gv_oth _ _ _ _ _ _ GV); auto]. destruct (gv_self _ _ _ _ _ _ GV) as (cl & -> & _). reflexivity. }
  assert (CF : forall (B : Type) (f : comp -> B), (forall y, f (w_claims [] y) = f y) -> forall d, f (comps s' d) = f (comps s d)).
  { intros B f H d. rewrite <- (H (comps s' d)), <- (H (comps s d)), CP. auto. }
  assert (RO : forall x, x <> r -> rsc s' x = rsc s x).
  { intros x N. rewrite (gv_rsc _ _ _ _ _ _ GV). destruct (Nat.eqb_spec x r); [contradiction | auto]. }
  assert (SM : sm s s').
  { split; [|rewrite (gv_env _ _ _ _ _ _ GV); reflexivity]. intros x. split; [eapply lstep_kind; eauto|]. rewrite (gv_rsc _ _ _ _ _ _ GV).
    destruct (Nat.eqb_spec x r) as [->|]; reflexivity. }
  assert (RQ : forall d, c_requests (comps s' d) = c_requests (comps s d)) by (apply CF; reflexivity).
  assert (ON : forall d, c_oneof (comps s' d) = c_oneof (comps s d)) by (apply CF; reflexivity).
  assert (ST : forall d, c_status (comps s' d) = c_status (comps s d)) by (apply CF; reflexivity).
  assert (AN : r_anon (rsc s r) = false) by (apply (cl_pos _ (am_cl _ A) c r v AL)).
  split; [constructor; auto|].
  { intros d x q I N. rewrite RQ in I. rewrite (sm_anon _ _ _ SM) in N. specialize (M d x q I N). rewrite (gv_rsc _ _ _ _ _ _ GV).
    destruct (Nat.eqb_spec x r) as [->|]; auto. }
  split; [auto|]. split.
  2: { split; [auto|]. split; [|auto]. intros x. rewrite (gv_q _ _ _ _ _ _ GV). reflexivity. }
  intros S. unfold plusr. apply (SS_touch D (fun _ x => x = r) s s'); auto.
  - intros d. unfold waitreq. rewrite RQ, ON, ST. auto.
  - intros d x q W I E C. destruct (Nat.eq_dec x r) as [->|N]; [|rewrite RO in C by auto; auto].
    destruct (enough_zero (rsc s r) q); auto.
    + apply claimed_nonneg; auto.
    + apply (req_nonneg s d r q); auto.
  - intros d W. apply S. unfold waitreq in *. rewrite RQ, ST in W. auto.
Qed.
Lemma rset_touch : forall r x s s' (D : nat -> nat -> Prop), rset s r x s' -> kind x = kind (rsc s r) -> r_trying x = r_trying (rsc s r) -> r_minq x = r_minq (rsc s r) ->
  AM s' -> J s -> (forall y d, exc s y = true -> D d y) -> J s' /\ sm s s' /\ (SS D s -> SS (plusr D r) s').
Proof.
  intros r x s s' D RS K T Q A' [G A M] X. pose proof (rset_GI _ _ _ _ RS G) as G'. destruct RS as (E & R).
  assert (C : comps s' = comps s) by (rewrite E; reflexivity). assert (QS : qs s' = qs s) by (rewrite E; reflexivity).
  assert (SM : sm s s').
  { split; [|rewrite E; reflexivity]. intros y. rewrite R. destruct (Nat.eqb_spec y r) as [->|]; auto. }
  split; [constructor; auto|].
  { intros d y q I N. rewrite C in I. rewrite (sm_anon _ _ _ SM) in N. rewrite R. destruct (Nat.eqb_spec y r) as [->|]; [rewrite Q|]; eapply M; eauto. }
  split; [auto|]. intros S. unfold plusr. apply (SS_touch D (fun _ y => y = r) s s'); auto.
  - intros d. unfold waitreq. rewrite C. auto.
  - intros d y q W I EX EN. destruct (Nat.eq_dec y r) as [->|N]; [|rewrite R in EN; destruct (Nat.eqb_spec y r); [contradiction | auto]].
    destruct (r_anon (rsc s r)) eqn:AN; [auto|]. destruct (enough_zero (rsc s r) q); auto.
    + apply claimed_nonneg; auto.
    + apply (req_nonneg s d r q); auto.
  - intros d W. apply S. unfold waitreq in *. rewrite C in W. auto.
Qed.
Lemma Post_release1 : forall n c r q s0 s, notry s0 -> Post s0 s -> wp (release1 n c r q false) (fun _ s' => Post s0 s') (fun _ _ => True) s.
Proof.
  intros n c r q s0 s N (JS & S & SM & F). eapply wp_of_eq; [apply release1_split|]. cbn [negb when]. apply wp_bind.
  eapply wp_conseq; [apply (w_release1 n c r q s (j_g _ JS)) | |]; cbv beta; auto. intros _ s1 (G1 & v & AL & GV).
  assert (L : lstep (LFree c r v (taken_back v q) false) s s1). { split; [auto|]. split; [apply taken_le|]. split; [discriminate | auto]. }
  assert (X : forall x d, exc s x = true -> Ex s0 d x) by (intros x d E; apply (Ex_sm s0 s); auto).
  destruct (free_touch _ _ _ _ _ _ _ (Ex s0) L G1 JS X) as (J1 & SM1 & S1 & _).
  apply Post_try; auto; [eapply sm_trans; eauto|]. eapply fpath_trans; [exact F|]. eapply fp_cons; [exact Logic.I | apply JS | exact L | discriminate | discriminate | discriminate | auto | apply fp_nil].
Qed.
Lemma Post_mfor : forall A (l : list A) (f : A -> M unit) s0, (forall a s, In a l -> Post s0 s -> wp (f a) (fun _ s' => Post s0 s') (fun _ _ => True) s) ->
  forall s, Post s0 s -> wp (mfor l f) (fun _ s' => Post s0 s') (fun _ _ => True) s.
Proof.
  induction l as [|a t IH]; intros f s0 H s P; cbn [mfor]; [apply wp_ret; auto|]. apply wp_bind.
  eapply wp_conseq; [apply H; [left; auto | exact P] | |]; cbv beta; auto. intros _ s1 P1. apply IH; auto. intros; apply H; auto. right; auto.
Qed.
Lemma Post_release : forall n c a s0 s, notry s0 -> Post s0 s -> wp (release n c a) (fun _ s' => Post s0 s') (fun _ _ => True) s.
Proof.
  intros n c a s0 s N P. unfold release. destruct a as [|a0 a1].
  - apply wp_bind, wp_get. apply Post_mfor; auto. intros r s1 _ P1. apply Post_release1; auto.
  - apply Post_mfor; auto. intros (r, q) s1 _ P1. cbn [fst snd]. apply wp_bind, wp_get. apply wp_if; intros _; [apply wp_raise; auto | apply Post_release1; auto].
Qed.
Lemma Post_release_claimers : forall f r s0, notry s0 -> forall n mx s, Post s0 s -> wp (release_claimers f n r mx) (fun _ s' => Post s0 s') (fun _ _ => True) s.
Proof.
  intros f r s0 N. induction n as [|n IH]; intros mx s P; cbn [release_claimers]; destruct mx as [(c, p)|];
    try (apply wp_ret; auto; fail); [apply wp_raise; auto|].
  apply wp_bind, wp_get. apply wp_if; intros _; [|apply wp_raise; auto]. apply wp_bind. eapply wp_conseq; [apply Post_release; eauto | |]; cbv beta; auto.
Qed.
Lemma Post_res_release : forall n r q s0 s, notry s0 -> Post s0 s -> wp (res_release n r q) (fun _ s' => Post s0 s') (fun _ _ => True) s.
Proof.
  intros n r q s0 s N P. unfold res_release. apply wp_bind, wp_get. destruct (r_anon (rsc s r)) eqn:AN.
  - apply wp_bind, wp_setr, wp_bind, wp_get, wp_bind. rewrite rsc_m_rsc, Nat.eqb_refl. cbn [r_claimed w_claimed].
    set (y := r_claimed (rsc s r) - match q with None => r_claimed (rsc s r) | Some v => v end).
    assert (K : forall s1, rset s r (anon_after q (rsc s r)) s1 -> wp (r_try n r) (fun _ s' => Post s0 s') (fun _ _ => True) s1).
    { intros s1 E. destruct P as (JS & S & SM & F). assert (L : lstep (LAnon r q) s s1) by (split; auto).
      assert (X : forall x d, exc s x = true -> Ex s0 d x) by (intros x d EE; apply (Ex_sm s0 s); auto).
      destruct (rset_touch r _ s s1 (Ex s0) E) as (J1 & SM1 & S1); auto; [apply (AM_step _ _ _ L); apply JS|].
      apply Post_try; auto; [eapply sm_trans; eauto|]. eapply fpath_trans; [exact F|]. eapply fp_cons; [exact Logic.I | apply JS | exact L | discriminate | discriminate | discriminate | apply J1 | apply fp_nil]. }
    apply wp_when; intros B; [apply wp_setr|]; apply wp_bind, wp_setr; apply K; (split; [destruct s; reflexivity|]); intros x;
      rewrite !rsc_m_rsc, !Nat.eqb_refl; destruct (Nat.eqb x r); auto; unfold anon_after; fold y; rewrite B; reflexivity.
  - destruct q; [apply wp_raise; auto|]. apply wp_bind, wp_get. apply Post_release_claimers; auto.
Qed.
Lemma Post_set_cap : forall n r cap s0 s, notry s0 -> Post s0 s -> wp (set_cap n r cap) (fun _ s' => Post s0 s') (fun _ _ => True) s.
Proof.
  intros n r cap s0 s N (JS & S & SM & F). unfold set_cap. apply wp_bind, wp_setr, wp_bind, wp_setr.
  match goal with |- wp _ _ _ ?z => set (s1 := z) end.
  assert (E : rset s r (cap_after cap (rsc s r)) s1).
  { split; [destruct s; reflexivity|]. intros x. unfold s1. rewrite !rsc_m_rsc, !Nat.eqb_refl. destruct (Nat.eqb x r); reflexivity. }
  assert (X : forall x d, exc s x = true -> Ex s0 d x) by (intros x d EE; apply (Ex_sm s0 s); auto).
  assert (L : lstep (LCap r cap) s s1) by exact E.
  destruct (rset_touch r _ s s1 (Ex s0) E) as (J1 & SM1 & S1); auto; [apply (AM_step _ _ _ L); apply JS|].
  apply Post_try; auto; [eapply sm_trans; eauto|]. eapply fpath_trans; [exact F|]. eapply fp_cons; [exact Logic.I | apply JS | exact L | discriminate | discriminate | discriminate | apply J1 | apply fp_nil].
Qed.
Lemma Post_r_try : forall n r s0 s, notry s0 -> Post s0 s -> wp (r_try n r) (fun _ s' => Post s0 s') (fun _ _ => True) s.
Proof. intros n r s0 s N (JS & S & SM & F). apply Post_try; auto. eapply SS_weak; [|exact S]. intros; left; auto. Qed.
Ltac ptm c := eapply (Post_tame _ _ c); [eassumption | auto | fkb c; auto using kb_remove, kb_check_fail, kb_reschedule | fgo (tame_po None); try (solve [taf (@None nat)]); auto using ta_remove, ta_check_fail, ta_reschedule | fgo (RG_po none); auto with gq; try (intros ?; apply GI_comp; auto; fail); try (intros ?; eapply GI_same; [| |eassumption]; reflexivity) | eassumption | ].
Lemma Post_cancel : forall n c s0 s, notry s0 -> Hd c -> Post s0 s -> wp (cancel n c) (fun _ s' => Post s0 s') (fun _ _ => True) s.
Proof.
  intros n c s0 s N HC P. unfold cancel. apply wp_bind, wp_stat. apply wp_if; intros _; [apply wp_ret; auto|].
  apply wp_bind. ptm c. intros _ s1 P1. apply wp_bind, wp_get, wp_bind.
  eapply wp_conseq; [apply Post_mfor with (s0 := s0); [|exact P1]; intros; apply Post_release1; auto | |]; cbv beta; auto.
  intros _ s2 P2. ptm c. auto.
Qed.
Lemma Post_terminate : forall n c s0 s, notry s0 -> Hd c -> Post s0 s -> wp (terminate n c) (fun _ s' => Post s0 s') (fun _ _ => True) s.
Proof.
  intros n c s0 s N HC P. unfold terminate. apply wp_bind, wp_get, wp_bind.
  eapply wp_conseq; [apply Post_mfor with (s0 := s0); [|exact P]; intros; apply Post_release1; auto | |]; cbv beta; auto.
  intros _ s2 P2. ptm c. auto.
Qed.
Lemma Post_continue : forall n c s0 s, notry s0 -> Hd c -> Post s0 s -> wp (continue n c) (fun _ s' => Post s0 s') (fun _ _ => True) s.
Proof.
  intros n c s0 s N HC P. unfold continue. apply wp_bind, wp_get, wp_bind. ptm c. intros _ s1 P1.
  apply Post_mfor; auto. intros; apply Post_r_try; auto.
Qed.
Lemma Post_put : forall f s0 s, notry s0 -> rsc (f s) = rsc s -> qs (f s) = qs s -> comps (f s) = comps s -> yl (f s) = yl s -> Post s0 s -> Post s0 (f s).
Proof.
  intros f s0 s N E1 E2 E3 E4 P. eapply Post_tame1; eauto; [apply tame_same; auto | | apply keepB_same; auto].
  eapply GI_same; [| |apply (j_g _ (proj1 P))]; auto.
Qed.
Lemma Post_step : forall n s0 s, notry s0 -> Hd main -> (forall c, In c (pend s) -> Hd c) -> (forall e l, ev_pop (evl s) = Some (e, l) -> Hd (e_c e)) ->
  Post s0 s -> wp (step n) (fun _ s' => Post s0 s') (fun _ _ => True) s.
Proof.
  intros n s0 s N HM HP HE P. unfold step. apply wp_bind, wp_get, wp_bind, wp_get, wp_bind, wp_get.
  assert (SE : forall z, evl z = evl s -> Post s0 z -> wp (step_event n) (fun _ s' => Post s0 s') (fun _ _ => True) z).
  { intros z EZ PZ. unfold step_event.
    assert (K : forall z1, evl z1 = evl s -> Post s0 z1 -> wp (l <- get evl ;;
      x <- match ev_pop l with Some (e, l') => put (s_evl l') ;;; ret (Some e) | None => ret None end ;;
      let c := match x with Some e => e_c e | None => main end in
      match x with
      | Some e => setc c (w_onev false) ;;; put (s_now (e_t e))
      | None => setc c (w_onev false) ;;; eo <- get eoe ;; when (negb eo) (put (s_ended true))
      end ;;;
      put (s_cur c) ;;; setc c (w_status Current) ;;; setc c (w_sched PInf) ;;;
      if Nat.eqb c main then put (s_running false) else check_fail c ;;; continue n c) (fun _ s' => Post s0 s') (fun _ _ => True) z1).
    { intros z1 E1 P1. apply wp_bind, wp_get, wp_bind. rewrite E1.
      assert (K2 : forall x z2, Hd (match x with Some e => e_c e | None => main end) -> Post s0 z2 -> wp (let c := match x with Some e => e_c e | None => main end in
        match x with
        | Some e => setc c (w_onev false) ;;; put (s_now (e_t e))
        | None => setc c (w_onev false) ;;; eo <- get eoe ;; when (negb eo) (put (s_ended true))
        end ;;;
        put (s_cur c) ;;; setc c (w_status Current) ;;; setc c (w_sched PInf) ;;;
        if Nat.eqb c main then put (s_running false) else check_fail c ;;; continue n c) (fun _ s' => Post s0 s') (fun _ _ => True) z2).
      { intros x z2 HC P2. cbv zeta. set (c := match x with Some e => e_c e | None => main end) in *.
        apply wp_bind. ptm c. intros _ s3 P3. apply wp_bind. ptm c. intros _ s4 P4. apply wp_bind. ptm c. intros _ s5 P5. apply wp_bind. ptm c. intros _ s6 P6.
        apply wp_if; intros _; [ptm c; auto|]. apply wp_bind. ptm c. intros _ s7 P7. apply Post_continue; auto. }
      destruct (ev_pop (evl s)) as [(e, l')|] eqn:EV.
      - apply wp_bind, wp_put, wp_ret. apply (K2 (Some e)); [apply (HE e l'); auto|]. apply Post_put; auto.
      - apply wp_ret. apply (K2 None); auto. }
    apply wp_bind, wp_get, wp_bind. apply wp_when; intros _; [apply wp_bind, wp_put, wp_put|]; apply K; auto.
    apply (Post_put (fun z => s_stby [] (s_pend (stby z) z))); auto. }
  match goal with |- wp match ?m with _ => _ end _ _ _ => destruct m as [|c t] eqn:PD end; [auto|].
  assert (HC : Hd c) by (apply HP; destruct (c_skip (comps s (cur s))); [discriminate | rewrite PD; left; auto]).
  apply wp_bind, wp_put. set (s1 := s_pend t s). assert (P1 : Post s0 s1) by (apply (Post_put (s_pend t)); auto).
  apply wp_bind, wp_stat. apply wp_if; intros _; [|auto].
  apply wp_bind. ptm c. intros _ s2 P2. apply wp_bind. ptm c. intros _ s3 P3. apply wp_bind. ptm c. intros _ s4 P4.
  apply wp_if; intros _; [apply wp_raise; auto|]. apply Post_continue; auto.
Qed.

(** ** request: what happens before c is tried *)
Record shy (c : nat) (s s' : env) : Prop := {
  sh_sm : sm s s';
  sh_st : forall d, d <> c -> c_status (comps s' d) = Requesting -> c_status (comps s d) = Requesting;
  sh_rq : forall d, d <> c -> c_requests (comps s' d) = c_requests (comps s d) \/ c_requests (comps s' d) = [];
  sh_one : forall d, d <> c -> c_oneof (comps s' d) = c_oneof (comps s d);
  sh_cl : forall r, r_preempt (rsc s r) = false -> r_claimed (rsc s' r) = r_claimed (rsc s r) /\ r_cap (rsc s' r) = r_cap (rsc s r);
  sh_mem : forall r d, d <> c -> mem s' (QReq r) d -> mem s (QReq r) d;
  sh_min : forall r, r_minq (rsc s' r) = r_minq (rsc s r) \/ (r_minq (rsc s' r) = PInf /\ forall d, d <> c -> ~ mem s' (QReq r) d) }.
Lemma sm_pre : forall s s' r, sm s s' -> r_preempt (rsc s' r) = r_preempt (rsc s r).
Proof. intros s s' r (A & B). destruct (A r) as (K & _). injection K as K1 K2 K3 K4. congruence. Qed.
Lemma shy_po : forall c, preorder (shy c).
Proof.
  intros c. constructor.
  - intros s. constructor; auto. apply sm_refl.
  - intros a b d A B. constructor.
    + eapply sm_trans; [apply (sh_sm _ _ _ A) | apply (sh_sm _ _ _ B)].
    + intros x N H. apply (sh_st _ _ _ A), (sh_st _ _ _ B); auto.
    + intros x N. destruct (sh_rq _ _ _ B x N) as [->|]; auto. apply (sh_rq _ _ _ A x N).
    + intros x N. rewrite (sh_one _ _ _ B x N). apply (sh_one _ _ _ A x N).
    + intros r P. destruct (sh_cl _ _ _ A r P) as (A1 & A2). rewrite <- (sm_pre _ _ _ (sh_sm _ _ _ A)) in P. destruct (sh_cl _ _ _ B r P) as (B1 & B2). split; congruence.
    + intros r x N H. apply (sh_mem _ _ _ A); auto. apply (sh_mem _ _ _ B); auto.
    + intros r. destruct (sh_min _ _ _ B r) as [E|]; auto. destruct (sh_min _ _ _ A r) as [F|(F1 & F2)]; [left; congruence|].
      right. split; [congruence|]. intros x N H. apply (F2 x N). apply (sh_mem _ _ _ B); auto.
Qed.
Lemma tame_shy : forall c s s', tame None s s' -> shy c s s'.
Proof.
  intros c s s' T. pose proof (ta_q _ _ T) as Q. constructor.
  - eapply tame_sm; eauto.
  - intros d _ H. apply (ta_wait _ _ T); [discriminate | auto].
  - intros d _. apply (qt_rq _ _ Q).
  - intros d _. apply (qt_one _ _ Q). discriminate.
  - intros r _. destruct (plain_claimed _ _ (qt_rsc _ _ Q r)) as (A & B & _). auto.
  - intros r d _. unfold mem. destruct (qt_req _ _ Q r) as (f & ->). intros I. apply in_map_iff in I. destruct I as (y & <- & I). apply filter_In in I. apply in_map. tauto.
  - intros r. destruct (ta_min _ _ T r) as [|(A & B)]; auto. right. split; auto. intros d _. unfold mem. rewrite B. auto.
Qed.
Lemma fr_shy : forall A c (m : M A), frames (tame None) m -> frames (shy c) m.
Proof. intros A c m F s. apply tame_shy, F. Qed.
Lemma shy_comp : forall c f s, shy c s (m_comp c f s).
Proof. intros c f s. constructor; auto; try (intros d N; rewrite comps_diff by auto; auto). apply (sm_refl s). Qed.
Lemma shy_enter : forall r c p, frames (shy c) (q_enter (QReq r) c p).
Proof.
  intros r c p. unfold q_enter. fgo (shy_po c).
  assert (MM : forall x d, d <> c -> mem (m_q (QReq r) (ins_sorted c p) s) (QReq x) d -> mem s (QReq x) d).
  { intros x d N. unfold mem. rewrite qs_m_q. destruct (qeqb_spec (QReq x) (QReq r)) as [->|]; auto. rewrite in_ins_sorted. intros [|]; [contradiction | auto]. }
  constructor; auto. apply (sm_refl s).
Qed.
Definition Rpr (c r : nat) (s s' : env) : Prop := r_preempt (rsc s r) = true -> shy c s s'.
Lemma Rpr_po : forall c r, preorder (Rpr c r).
Proof.
  intros c r. constructor; unfold Rpr.
  - intros s _. apply (shy_po c).
  - intros a b d A B P. specialize (A P). eapply (po_trans _ (shy_po c)); [exact A|]. apply B. rewrite (sm_pre _ _ _ (sh_sm _ _ _ A)). auto.
Qed.
Lemma Rpr_release1 : forall n c d r q, frames (Rpr c r) (release1 n d r q true).
Proof.
  intros n c d r q. unfold release1, q_leave. cbn [negb when].
  assert (RR : forall f s, (forall x, kind (f x) = kind x /\ r_trying (f x) = r_trying x /\ r_minq (f x) = r_minq x) -> Rpr c r s (m_rsc r f s)).
  { intros f s H P. constructor; auto; try (intros; cbn; unfold upd; match goal with |- context [Nat.eqb ?a ?b] => destruct (Nat.eqb_spec a b) as [->|] end; auto).
    - split; [|reflexivity]. intros x. rewrite rsc_m_rsc. destruct (Nat.eqb_spec x r) as [->|]; auto. destruct (H (rsc s r)) as (A & B & _). auto.
    - congruence.
    - left. apply H. }
  assert (CC : forall f s, (forall x, c_status (f x) = c_status x /\ c_requests (f x) = c_requests x /\ c_oneof (f x) = c_oneof x) -> Rpr c r s (m_comp d f s)).
  { intros f s H P. constructor; auto; try apply (sm_refl s); intros x N; (destruct (Nat.eq_dec x d) as [->|E]; [rewrite comps_same | rewrite comps_diff by auto; auto]); destruct (H (comps s d)) as (H1 & H2 & H3); auto.
    rewrite H1. auto. }
  assert (QQ : forall s, Rpr c r s (m_q (QClaim r) (adel d) s)).
  { intros s P. assert (MM : forall x y, mem (m_q (QClaim r) (adel d) s) (QReq x) y -> mem s (QReq x) y) by (intros x y; unfold mem; rewrite qs_m_q; auto). constructor; auto; try apply (sm_refl s); try (intros x y _; apply MM). }
  fgo (Rpr_po c r); try (apply RR; intros; repeat split; fail); try (apply CC; intros; repeat split; fail); auto.
Qed.
Lemma shy_request1 : forall n c b a, frames (shy c) (request1 n c b a).
Proof.
  intros n c b ((r, q), p) s. apply wp_fst. unfold request1.
  assert (Z : shy c s s) by apply (shy_po c).
  apply wp_bind, wp_get, wp_bind, wp_when; intros _; [apply wp_raise; auto|]. apply wp_bind, wp_when; intros _; [apply wp_raise; auto|].
  apply wp_bind, wp_setc, wp_bind. match goal with |- wp _ _ _ ?z => assert (Z1 : shy c s z) by apply shy_comp; generalize dependent z end. intros s1 Z1.
  eapply wp_conseq; [apply (frames_wp _ (shy c) _ s1 (shy_enter r c p)) | |]; cbv beta; [|intros e s2 K; eapply (po_trans _ (shy_po c)); eauto].
  intros _ s2 Z2. pose proof (po_trans _ (shy_po c) _ _ _ Z1 Z2) as Z3. apply wp_when; intros PR; [|auto].
  assert (F : frames (Rpr c r) (av <- get (fun s => r_mavail (rsc s r)) ;;
     l <- get (fun s => qs s (QClaim r)) ;;
     let '(cs, av') := bump_candidates q p av (rev l) in
     when (xleb (Fin 0) av')
       (mfor cs (fun c' =>
          release1 n c' r None true ;;;
          sw <- get (fun s => yl s && Nat.eqb c' (cur s)) ;;
          (if (sw : bool) then raise Unmodelled
           else activate c' None (Fin 0) (Fin 0) false false false false None))))).
  { fgo (Rpr_po c r); auto using Rpr_release1.
    intros z _. apply tame_shy. apply ta_activate. }
  assert (K : forall z, Rpr c r s2 z -> shy c s z).
  { intros z H. eapply (po_trans _ (shy_po c)); [exact Z3|]. apply H. rewrite (sm_pre _ _ _ (sh_sm _ _ _ Z3)). auto. }
  eapply wp_conseq; [apply (frames_wp _ _ _ s2 F) | |]; cbv beta; auto.
Qed.
(** nobody gets interrupted *)
Definition Rni (s s' : env) : Prop := forall d, c_status (comps s' d) = Interrupted -> c_status (comps s d) = Interrupted.
Lemma Rni_po : preorder Rni.
Proof. constructor; unfold Rni; auto. Qed.
Lemma Rni_comp : forall c f s, (forall x, c_status (f x) = c_status x \/ c_status (f x) <> Interrupted) -> Rni s (m_comp c f s).
Proof. intros c f s H d. destruct (Nat.eq_dec d c) as [->|N]; [rewrite comps_same | rewrite comps_diff by auto; auto]. destruct (H (comps s c)) as [->|K]; [auto|]. intros E; contradiction. Qed.
Ltac fni := fgo Rni_po; try (match goal with |- Rni ?s (m_comp _ _ ?s) => apply Rni_comp; intros; try (left; reflexivity); right; discriminate | |- Rni _ _ => intros ?; auto end).
Lemma ni_push : forall c t p u, frames Rni (push c t p u). Proof. intros. unfold push. fni. Qed.
Lemma ni_remove : forall c, frames Rni (remove c).
Proof. intros. unfold remove. fni. Qed.
Lemma ni_reschedule : forall c t p u cap, frames Rni (reschedule c t p u cap). Proof. intros. unfold reschedule, push. fni. Qed.
Lemma ni_check_fail : forall c, frames Rni (check_fail c). Proof. intros. unfold check_fail, leave_req, q_leave. fni. Qed.
Lemma ni_activate : forall c a d p u pr kr kw cap, frames Rni (activate c a d p u pr kr kw cap).
Proof. intros. unfold activate, check_fail, leave_req, q_leave. fni; auto using ni_remove, ni_reschedule.
Qed.
Lemma ni_release1 : forall n c r q, frames Rni (release1 n c r q true). Proof. intros. unfold release1, q_leave. cbn [negb when]. fni. Qed.
Lemma ni_fail_time : forall sp, frames Rni (fail_time sp). Proof. intros. unfold fail_time. fni. Qed.
Lemma ni_request1 : forall n c b a, frames Rni (request1 n c b a).
Proof. intros n c b ((r, q), p). unfold request1, q_enter. fni; auto using ni_activate, ni_release1. Qed.
Definition noG : lab -> Prop := segl Hd.
Lemma noG_fpath : forall s s', GI none s -> GI none s' -> rpath noG s s' -> keepB Hd s s' -> fpath anyl s s'.
Proof.
  intros s s' G G' R K. eapply fp_seg; [intros; exact Logic.I | exact G | exact R | exact K | exact G' | apply fp_nil].
Qed.
(** the claimers of the preemptive resources in A are handled *)
Definition Inv (A : list nat) (s : env) : Prop := forall r d, In r A -> r_preempt (rsc s r) = true -> mem s (QClaim r) d -> Hd d.
Definition kw (A : list nat) (s s' : env) : Prop := Inv A s -> Inv A s' /\ keepB Hd s s'.
Lemma kw_po : forall A, preorder (kw A).
Proof.
  intros A. constructor.
  - intros s I. split; auto. apply keepB_same; auto.
  - intros a b c H K I. destruct (H I) as (I1 & K1), (K I1) as (I2 & K2). split; auto. eapply keepB_trans; eauto.
Qed.
Lemma kw_comp : forall A c f s, Hd c -> kw A s (m_comp c f s).
Proof. intros A c f s H I. split; [exact I|]. apply (keepB_kb _ c); auto. apply kb_comp. Qed.
Lemma kw_rsc : forall A r f s, r_preempt (f (rsc s r)) = r_preempt (rsc s r) -> kw A s (m_rsc r f s).
Proof.
  intros A r f s H I. split; [|apply keepB_same; reflexivity]. intros x d IA P M. apply (I x d IA); auto. rewrite rsc_m_rsc in P.
  destruct (Nat.eqb_spec x r) as [->|]; congruence.
Qed.
Lemma kw_q : forall A q f s, (forall r, q <> QClaim r) -> kw A s (m_q q f s).
Proof.
  intros A q f s H I. split; [|apply keepB_same; reflexivity]. intros x d IA P M. apply (I x d IA); auto. unfold mem in *. rewrite qs_m_q in M.
  destruct (qeqb_spec (QClaim x) q) as [<-|]; auto. destruct (H x); auto.
Qed.
Lemma kw_leave : forall A r c s, kw A s (m_q (QClaim r) (adel c) s).
Proof.
  intros A r c s I. split; [|apply keepB_same; reflexivity]. intros x d IA P M. apply (I x d IA); auto. unfold mem in *. rewrite qs_m_q in M.
  destruct (qeqb_spec (QClaim x) (QClaim r)) as [E|]; auto. rewrite E in *. change (In d (keys (adel c (qs s (QClaim r))))) in M. apply keys_adel_in in M. apply M.
Qed.
Lemma kw_kb : forall B A (m : M B) c, Hd c -> frames (kb c) m -> frames (quiet None) m -> frames (kw A) m.
Proof.
  intros B A m c H F1 F2 s I. split; [|apply (keepB_kb _ c); auto]. intros x d IA P M. apply (I x d IA).
  - rewrite <- P. symmetry. pose proof (plain_kind _ _ (qt_rsc _ _ (F2 s) x)) as K. injection K. auto.
  - unfold mem in *. rewrite (qt_clm _ _ (F2 s)) in M. auto.
Qed.
Lemma kb_activate : forall c a d p u pr kr kw' cap, frames (kb c) (activate c a d p u pr kr kw' cap).
Proof. intros. unfold activate, check_fail, leave_req, q_leave. fkb c; auto using kb_remove, kb_reschedule. Qed.
Lemma kw_release1 : forall A n c r q, Hd c -> frames (kw A) (release1 n c r q true).
Proof.
  intros A n c r q H. unfold release1, q_leave. cbn [negb when].
  fgo (kw_po A); try (apply kw_comp; auto; fail); try (apply kw_rsc; reflexivity); apply kw_leave.
Qed.
Lemma kw_request1 : forall A n c b a, Hd c -> In (fst (fst a)) A -> frames (kw A) (request1 n c b a).
Proof.
  intros A n c b ((r, q), p) HC IA s. cbn [fst snd] in IA. apply wp_fst. unfold request1. assert (Z : kw A s s) by apply kw_po.
  apply wp_bind, wp_get, wp_bind, wp_when; intros _; [apply wp_raise; auto|]. apply wp_bind, wp_when; intros _; [apply wp_raise; auto|].
  apply wp_bind, wp_setc, wp_bind. match goal with |- wp _ _ _ ?z => assert (Z1 : kw A s z) by (apply kw_comp; auto);
    assert (PR1 : r_preempt (rsc z r) = r_preempt (rsc s r)) by reflexivity; generalize dependent z end. intros s1 Z1 PR1.
  unfold q_enter. apply wp_bind, wp_get. apply wp_if; intros _; [apply wp_raise; auto|]. apply wp_put.
  match goal with |- wp _ _ _ ?z => assert (Z2 : kw A s1 z) by (apply kw_q; discriminate);
    assert (PR2 : r_preempt (rsc z r) = r_preempt (rsc s r)) by exact PR1; generalize dependent z end. intros s2 Z2 PR2.
  pose proof (po_trans _ (kw_po A) _ _ _ Z1 Z2) as Z3. apply wp_when; intros PR; [|auto].
  apply wp_bind, wp_get, wp_bind, wp_get. destruct (bump_candidates q p _ (rev (qs s2 (QClaim r)))) as (cs, av') eqn:BC.
  apply wp_when; intros _; [|auto]. rewrite PR in PR2.
  assert (F : (forall d, In d cs -> Hd d) -> frames (kw A) (mfor cs (fun c' =>
          release1 n c' r None true ;;;
          sw <- get (fun s => yl s && Nat.eqb c' (cur s)) ;;
          (if (sw : bool) then raise Unmodelled
           else activate c' None (Fin 0) (Fin 0) false false false false None)))).
  { clear. induction cs as [|d t IH]; intros H; cbn [mfor]; [apply (fr_ret _ (kw_po A))|].
    assert (HD : Hd d) by (apply H; left; auto).
    apply (fr_bind _ (kw_po A)); [|intros _; apply IH; intros; apply H; right; auto].
    fgo (kw_po A); auto using kw_release1. apply kw_kb with (c := d); auto using kb_activate, qt_activate. }
  assert (KK : forall z, (Inv A s2 -> kw A s2 z) -> kw A s z).
  { intros z H I. destruct (Z3 I) as (I2 & K2). destruct (H I2 I2) as (I3 & K3). split; auto. eapply keepB_trans; eauto. }
  apply wp_of_fst. apply KK. intros I. apply F. intros d Id. apply (I r d IA PR2). unfold mem.
  pose proof (bump_candidates_in q p (r_mavail (rsc s2 r)) (rev (qs s2 (QClaim r))) d) as BI. rewrite BC in BI. specialize (BI Id).
  rewrite map_rev in BI. apply in_rev in BI. exact BI.
Qed.
Lemma kb_fail_time : forall c sp, frames (kb c) (fail_time sp). Proof. intros. unfold fail_time. fkb c. Qed.
(** while the request of c is being registered *)
Definition Mid (A : list nat) (c : nat) (s0 s : env) : Prop := GI none s /\ AM s /\ shy c s0 s /\ Rni s0 s /\ rpath noG s0 s /\ kw A s0 s.
Lemma Mid_frame : forall B (m : M B) A c s0 s, frames (shy c) m -> frames (RP noG) m -> frames Rni m -> frames (kw A) m -> Mid A c s0 s ->
  wp m (fun _ s' => Mid A c s0 s') (fun _ _ => True) s.
Proof.
  intros B m A c s0 s F1 F2 F3 F4 (G & AA & S & N & F & K).
  eapply wp_conseq; [apply (wp_and _ _ _ _ _ _ _ (frames_wp _ _ m s F1) (wp_and _ _ _ _ _ _ _ (frames_wp _ _ m s F2) (wp_and _ _ _ _ _ _ _ (frames_wp _ _ m s F3) (frames_wp _ _ m s F4)))) | |]; cbv beta; auto.
  intros a s' (S' & R' & N' & K'). destruct (R' G) as (G' & P').
  split; [auto|]. split; [|split; [|split; [|split]]].
  - apply (inv_path noG AM) with (s := s); auto. intros; eapply AM_step; eauto.
  - eapply (po_trans _ (shy_po c)); eauto.
  - eapply (po_trans _ Rni_po); eauto.
  - eapply rpath_trans; [exact F | exact P'].
  - eapply (po_trans _ (kw_po A)); eauto.
Qed.
Lemma shy_SSx : forall c s s', shy c s s' -> SS (Ex s) s -> SSx c (Ex s) s'.
Proof.
  intros c s s' H S d N W. destruct W as (W1 & W2). destruct (sh_rq _ _ _ H d N) as [E|E]; [|contradiction].
  assert (W : waitreq s d). { split; [apply (sh_st _ _ _ H); auto | congruence]. }
  apply (blocked_step (Ex s) (Ex s) s s' d); auto.
  - apply (sh_one _ _ _ H); auto.
  - apply (sh_sm _ _ _ H).
  - intros r q I C. destruct (exc s r) eqn:X; [right; split; [exact X | right; right; auto]|]. left.
    rewrite can_plain in C by (rewrite (sm_exc _ _ _ (sh_sm _ _ _ H)); auto). rewrite can_plain by auto.
    destruct (sh_cl _ _ _ H r) as (C1 & C2).
    { unfold exc in X. destruct (r_preempt (rsc s r)); [discriminate | auto]. }
    unfold enough, avail in *. rewrite C1, C2 in C. auto.
Qed.
Lemma shy_MI : forall c s s', shy c s s' -> GI none s' -> MI s -> forall d r q, d <> c -> In (r, q) (c_requests (comps s' d)) -> r_anon (rsc s' r) = false -> xle (r_minq (rsc s' r)) (Fin q).
Proof.
  intros c s s' H G M d r q N I A. destruct (sh_rq _ _ _ H d N) as [E|E]; [|rewrite E in I; destruct I].
  destruct (sh_min _ _ _ H r) as [->|(_ & K)]; [rewrite E in I; apply (M d); auto; rewrite <- (sm_anon _ _ _ (sh_sm _ _ _ H)); auto|].
  exfalso. apply (K d N). apply GI_mem_req; auto. unfold keys. change r with (fst (r, q)). apply in_map. auto.
Qed.
(** _minq *)
Definition low (s s' : env) : Prop := comps s' = comps s /\ qs s' = qs s /\ yl s' = yl s /\
  forall r, plain (rsc s' r) = plain (rsc s r) /\ r_trying (rsc s' r) = r_trying (rsc s r) /\ xle (r_minq (rsc s' r)) (r_minq (rsc s r)).
Lemma low_po : preorder low.
Proof.
  constructor.
  - intros s. repeat split. intros. apply xle_refl.
  - intros a b c (A1 & A2 & A3 & A4) (B1 & B2 & B3 & B4). split; [congruence|]. split; [congruence|]. split; [congruence|].
    intros r. destruct (A4 r) as (X1 & X2 & X3), (B4 r) as (Y1 & Y2 & Y3). split; [congruence|]. split; [congruence|]. eapply xle_trans; eauto.
Qed.
Definition lower (p : nat * Q) : M unit := setr (fst p) (fun x => if xltb (Fin (snd p)) (r_minq x) then w_minq (Fin (snd p)) x else x).
Lemma w_lower : forall p s, wp (lower p) (fun _ s' => low s s' /\ xle (r_minq (rsc s' (fst p))) (Fin (snd p))) (fun _ _ => False) s.
Proof.
  intros (r, q) s. unfold lower. cbn [fst snd]. apply wp_setr.
  assert (K : forall x, xle (r_minq (if xltb (Fin q) (r_minq x) then w_minq (Fin q) x else x)) (Fin q) /\
                   xle (r_minq (if xltb (Fin q) (r_minq x) then w_minq (Fin q) x else x)) (r_minq x)).
  { intros x. destruct (xltb (Fin q) (r_minq x)) eqn:E; cbn [r_minq w_minq].
    - split; [apply xle_refl|]. apply xltb_iff in E. destruct (r_minq x); cbn in *; [lra | auto].
    - split; [|apply xle_refl]. apply xltb_false_iff in E. auto. }
  split; [|rewrite rsc_m_rsc, Nat.eqb_refl; apply K].
  split; [reflexivity|]. split; [reflexivity|]. split; [reflexivity|]. intros x. rewrite rsc_m_rsc. destruct (Nat.eqb_spec x r) as [->|]; [|split; [auto|]; split; [auto | apply xle_refl]].
  split; [|split; [|apply K]]; destruct (xltb (Fin q) (r_minq (rsc s r))); reflexivity.
Qed.
Lemma w_lowers : forall l s, wp (mfor l lower) (fun _ s' => low s s' /\ forall r q, In (r, q) l -> xle (r_minq (rsc s' r)) (Fin q)) (fun _ _ => False) s.
Proof.
  induction l as [|p t IH]; intros s; cbn [mfor]; [apply wp_ret; split; [apply low_po | intros ? ? []]|].
  apply wp_bind. eapply wp_conseq; [apply w_lower | |intros ? ? []]; cbv beta. intros _ s1 (L1 & X1).
  eapply wp_conseq; [apply IH | |intros ? ? []]; cbv beta. intros _ s2 (L2 & X2). split; [eapply (po_trans _ low_po); eauto|].
  intros r q [->|I]; [|auto]. cbn [fst snd] in X1. eapply xle_trans; [apply L2 | exact X1].
Qed.
Lemma low_sm : forall s s', low s s' -> sm s s'.
Proof. intros s s' (A & B & C & D). split; [|auto]. intros r. destruct (D r) as (K & T & _). split; [apply plain_kind; auto | auto]. Qed.
Lemma low_quiet : forall s s', low s s' -> quiet None s s'.
Proof.
  intros s s' (A & B & C & D). constructor; intros; rewrite ?A, ?B; auto.
  - apply D.
  - exists (fun _ => true). symmetry. clear. induction (qs s (QReq r)); cbn; congruence.
Qed.
Lemma low_SSx : forall c (D : nat -> nat -> Prop) s s', low s s' -> SSx c D s -> SSx c D s'.
Proof.
  intros c D s s' L S d N W. pose proof (low_sm _ _ L) as SM. destruct L as (A & B & C & R). unfold waitreq in W. rewrite A in W. specialize (S d N W).
  apply (blocked_step D D s s' d); auto; try (rewrite A; auto). intros r q I E. left. destruct (R r) as (P & _). pose proof (plain_kind _ _ P) as K. injection K as K1 K2 K3 K4.
  unfold can_one, allowed in *. rewrite B, K3, K4 in E. rewrite (enough_plain _ _ q P) in E. auto.
Qed.

Lemma Post_request : forall n c args oneof fail prio urgent cap s, Hd c -> Inv (map (fun a => fst (fst a)) args) s -> args <> [] ->
  J s -> SS (Ex s) s -> notry s -> c_status (comps s c) <> Interrupted ->
  wp (request n c args oneof fail prio urgent cap) (fun _ s' => Post s s') (fun _ _ => True) s.
Proof.
  intros n c args oneof fail prio urgent cap s HC IV NA JS S NT NI. unfold request.
  set (A := map (fun a => fst (fst a)) args) in *.
  assert (PN : noG (LQuiet None)) by exact Logic.I.
  assert (M0 : Mid A c s s).
  { split; [apply JS|]. split; [apply JS|]. split; [apply (shy_po c)|]. split; [apply Rni_po|]. split; [apply rp_nil | apply kw_po]. }
  apply wp_bind. eapply wp_conseq; [apply (Mid_frame _ _ A c s s) | |]; cbv beta; eauto.
  { fgo (shy_po c). apply shy_comp. }
  { intros z G. assert (G1 : GI none (m_comp c (w_oneof oneof) z)) by (apply GI_comp; auto). split; auto.
    eapply rpath_one with (l := LQuiet (Some c)); [exact Logic.I | auto | apply quiet_one | auto]. }
  { fni. }
  { fgo (kw_po A). apply kw_comp; auto. }
  intros _ s1 M1. apply wp_bind, wp_stat, wp_bind.
  eapply wp_conseq; [apply (Mid_frame _ _ A c s s1) | |]; cbv beta; eauto.
  { fgo (shy_po c); apply fr_shy; auto using ta_check_notdata, ta_check_notmain, ta_remove, ta_check_fail. }
  { frp noG; auto using rp_remove, rp_check_fail; apply RP_quiet; auto with qt gq. }
  { unfold check_notdata, check_notmain. fni; auto using ni_remove, ni_check_fail. }
  { apply kw_kb with (c := c); auto.
    - unfold check_notdata, check_notmain. fkb c; auto using kb_remove, kb_check_fail.
    - fqt; auto with qt. }
  intros _ s2 M2. apply wp_bind. eapply wp_conseq; [apply (Mid_frame _ _ A c s s2) | |]; cbv beta; eauto using ni_fail_time.
  { apply fr_shy, ta_fail_time. }
  { apply RP_quiet; auto with qt gq. }
  { apply kw_kb with (c := c); auto using kb_fail_time with qt. }
  intros t s3 M3. apply wp_bind. eapply wp_conseq; [apply (Mid_frame _ _ A c s s3) | |]; cbv beta; eauto.
  { fgo (shy_po c). apply shy_comp. }
  { frp noG. }
  { fni. }
  { fgo (kw_po A). apply kw_comp; auto. }
  intros _ s4 M4. destruct args as [|a0 args0]; [contradiction|]. set (args := a0 :: args0) in *.
  apply wp_bind.
  assert (FK : forall l b, (forall a, In a l -> In a args) -> frames (kw A) (mfor l (request1 n c b))).
  { induction l as [|a l IH]; intros b HI; cbn [mfor]; [apply (fr_ret _ (kw_po A))|]. apply (fr_bind _ (kw_po A)); [|intros _; apply IH; intros; apply HI; right; auto].
    apply kw_request1; auto. unfold A. apply in_map_iff. exists a. split; auto. apply HI. left; auto. }
  eapply wp_conseq; [apply (Mid_frame _ (mfor args (request1 n c (1 <? length args)%nat)) A c s s4) | |]; cbv beta; eauto.
  { fgo (shy_po c). apply shy_request1. }
  { frp noG. apply rp_request1; first [exact PN | exact HC | intros; exact Logic.I]. }
  { fni. apply ni_request1. }
  intros _ s5 (G5 & A5 & H5 & N5 & R5 & K5). apply wp_bind, wp_get, wp_bind.
  destruct (K5 IV) as (_ & KB5). assert (F5 : fpath anyl s s5) by (apply noG_fpath; auto; apply JS).
  set (rq := c_requests (comps s5 c)). change (fun p => setr (fst p) _) with lower.
  eapply wp_conseq; [apply w_lowers | |intros ? ? []]; cbv beta. intros _ s6 (L6 & X6).
  pose proof (shy_SSx _ _ _ H5 S) as S5. pose proof (low_SSx _ _ _ _ L6 S5) as S6. pose proof (low_quiet _ _ L6) as Q6.
  assert (SM6 : sm s s6) by (eapply sm_trans; [apply (sh_sm _ _ _ H5) | apply low_sm; auto]).
  destruct L6 as (C6 & QS6 & Y6 & R6).
  assert (G6 : GI none s6) by (eapply GI_same; [| |exact G5]; auto).
  assert (J6 : J s6).
  { constructor; auto.
    - apply (AM_step (LQuiet None) s5 s6); auto.
    - intros d r q I AN. rewrite C6 in I. destruct (Nat.eq_dec d c) as [->|N]; [apply X6; auto|]. eapply xle_trans; [apply R6|].
      eapply (shy_MI c s s5); eauto; [apply JS|]. destruct (R6 r) as (P & _). pose proof (plain_kind _ _ P) as K. injection K as K1 K2 K3 K4. congruence. }
  assert (F6 : fpath anyl s s6).
  { eapply fpath_trans; [exact F5|]. apply fpath_quiet; auto; apply keepB_same; auto. }
  assert (NI6 : c_status (comps s6 c) <> Interrupted) by (rewrite C6; intros E; apply NI, N5; auto).
  apply wp_bind, wp_get, wp_bind, wp_setc. set (s7 := m_comp c _ s6).
  pose proof (j_g _ J6) as G6'.
  assert (T7 : tame None s6 s7) by (apply tame_comp; [reflexivity | auto | reflexivity | intros; cbn; auto]).
  assert (G7 : GI none s7) by (apply GI_comp; auto).
  assert (J7 : J s7) by (eapply tame_J; eauto).
  assert (S7 : SSx c (Ex s) s7).
  { intros d N W. unfold s7 in W. unfold waitreq in W. rewrite comps_diff in W by auto. specialize (S6 d N W).
    apply (blocked_step (Ex s) (Ex s) s6 s7 d); auto; try (unfold s7; rewrite comps_diff by auto; auto). apply (tame_sm _ _ _ T7). }
  assert (SM7 : sm s s7) by (eapply sm_trans; [exact SM6 | apply (tame_sm _ _ _ T7)]).
  assert (F7 : fpath anyl s s7).
  { eapply fpath_trans; [exact F6|]. apply fpath_quiet; auto; [apply (ta_q _ _ T7) | apply (keepB_kb _ c); auto; apply kb_comp]. }
  assert (NI7 : c_status (comps s7 c) <> Interrupted) by (unfold s7; rewrite comps_same; exact NI6).
  assert (OK7 : OKD (Ex s) s7) by (apply (sm_OKD _ _ _ SM7), Rest_OKD; auto).
  assert (HRT : forall r (D : nat -> nat -> Prop) z, J z -> OKD D z -> r_anon (rsc z r) = true -> SS (plusr D r) z ->
    wp (r_try n r) (fun _ s' => post Hd D z s') (fun _ _ => True) z).
  { intros r D z H1 H2 H3 H4. apply w_r_try. split; [auto|]. split; [auto|]. split; [auto|]. intros K; congruence. }
  apply wp_bind. eapply wp_conseq; [apply (w_ct Hd (r_try n) HRT c (Ex s) s7); auto | |]; cbv beta; auto.
  { intros GR. apply (fair_intro (Ex s)); auto. intros d r q _ X _ _ DD. unfold Ex in DD. rewrite (sm_exc _ _ _ SM7) in X. congruence. }
  intros b s8 [(_ & -> & [K|K])|(_ & (J8 & S8 & SM8 & F8) & E8 & _)]; [contradiction | |].
  - apply wp_bind, wp_get. apply wp_when; intros NN.
    + apply nonnil_true in NN. pose proof (not_granted (Ex s) s7 c K NN) as B7. apply wp_bind, wp_setc.
      set (s9 := m_comp c (w_status Requesting) s7).
      assert (G9 : GI none s9) by (apply GI_comp; auto).
      assert (Q9 : quiet None s7 s9) by (apply quiet_comp; auto).
      assert (SM9 : sm s7 s9) by apply (sm_refl s7).
      assert (P9 : Post s s9).
      { split; [constructor; auto|].
        - apply (AM_step (LQuiet None) s7 s9); auto. apply J7.
        - intros d r q I AN. apply (j_m _ J7 d r q); auto. unfold s9 in I. destruct (Nat.eq_dec d c) as [->|N]; [rewrite comps_same in I | rewrite comps_diff in I by auto]; auto.
        - split; [|split; [eapply sm_trans; eauto|]].
          + intros d W. apply (blocked_step (Ex s) (Ex s) s7 s9 d); auto;
              try (unfold s9; destruct (Nat.eq_dec d c) as [->|N]; [rewrite comps_same | rewrite comps_diff by auto]; auto).
            destruct (Nat.eq_dec d c) as [->|N]; [auto|]. apply S7; auto. unfold s9, waitreq in W. rewrite comps_diff in W by auto. exact W.
          + eapply fpath_trans; [exact F7|]. apply fpath_quiet; auto; apply (keepB_kb _ c); auto; apply kb_comp. }
      eapply (Post_tame _ _ c); [exact NT | exact HC | apply kb_reschedule | apply ta_reschedule | auto with gq | exact P9 | auto].
    + apply nonnil_false in NN. split; [auto|]. split; [|split; auto].
      intros d W. destruct (Nat.eq_dec d c) as [->|N]; [destruct W as (_ & W); contradiction | apply S7; auto].
  - apply wp_bind, wp_get. rewrite E8. cbn [nonnil when]. apply wp_ret. split; [auto|]. split; [auto|]. split; [eapply sm_trans; eauto|].
    eapply fpath_trans; [exact F7|]. eapply fpath_weak; [|exact F8]. intros; exact Logic.I.
Qed.

End Calls.

(** ** from_store and to_store: c waits in the store's queue, with no request for resources *)
Definition cut (c : nat) (s s' : env) : Prop :=
  tame None s s' \/ exists s1, tame None s s1 /\ GI none s1 /\ c_requests (comps s1 c) = [] /\ tame (Some c) s1 s'.
(** the calls in which no resource changes hands *)
Definition Post0 (s0 s : env) : Prop := J s /\ SS (Ex s0) s /\ sm s0 s.
Lemma Post_Post0 : forall Hd s0 s, Post Hd s0 s -> Post0 s0 s. Proof. intros Hd s0 s (A & B & C & _). split; auto. Qed.
Lemma Post0_Rest : forall s0 s, Rest s0 -> Post0 s0 s -> Rest s.
Proof.
  intros s0 s (_ & _ & N) (A & B & C). split; [auto|]. split.
  - eapply SS_weak; [|exact B]. intros c r _ _ H. apply (Ex_sm s0 s); auto.
  - intros r. destruct C as (C & _). destruct (C r) as (_ & ->). apply N.
Qed.
Lemma Post0_tame : forall s0 s, Rest s0 -> tame None s0 s -> GI none s -> Post0 s0 s.
Proof.
  intros s0 s (A & B & C) T G. split; [eapply tame_J; eauto|]. split; [|eapply tame_sm; eauto]. apply (tame_SS _ s0); auto.
Qed.
Lemma Post_cut : forall c s0 s, Rest s0 -> GI none s -> cut c s0 s -> Post0 s0 s.
Proof.
  intros c s0 s R G [T|(s1 & T1 & G1 & E1 & T2)].
  - apply Post0_tame; auto.
  - assert (P1 : Post0 s0 s1) by (apply Post0_tame; auto).
    destruct P1 as (J1 & S1 & SM1). pose proof (tame_sm _ _ _ T2) as SM2. pose proof (ta_q _ _ T2) as Q2.
    split; [eapply tame_J; eauto|]. split; [|eapply sm_trans; eauto].
    assert (NC : forall d, waitreq s d -> waitreq s1 d /\ c_requests (comps s d) = c_requests (comps s1 d) /\ c_oneof (comps s d) = c_oneof (comps s1 d)).
      { intros d (W1 & W2). destruct (qt_rq _ _ Q2 d) as [E|E]; [|contradiction].
        assert (N : d <> c) by (intros ->; congruence).
        split; [|split; [auto | apply (qt_one _ _ Q2); discriminate]]. split; [apply (ta_wait _ _ T2); auto; congruence | congruence]. }
    apply SS_weak with (D := fun c r => Ex s0 c r \/ (fun _ _ => False) c r); [tauto|]. apply (SS_touch (Ex s0) (fun _ _ => False) s1 s); auto.
    + intros r d X. apply (Ex_sm s0 s1); auto.
    + intros d r q _ _ _ E. left. rewrite <- (enough_plain _ _ q (qt_rsc _ _ Q2 r)). auto.
    + intros d W. apply S1. apply NC; auto.
Qed.
Lemma cut_store : forall c (m : xq -> M unit) (b : bool) fail s, GI none s -> (c_status (comps s c) = Current -> c_requests (comps s c) = []) ->
  (forall t, frames (tame (Some c)) (m t)) ->
  wp (when b (raise ValueErr) ;;; st <- stat c ;; when (negb (steqb st Current)) (check_notdata c ;;; check_notmain c ;;; remove c ;;; check_fail c) ;;;
      t <- fail_time fail ;; setc c (w_failed false) ;;; m t) (fun _ s' => cut c s s') (fun _ s' => cut c s s') s.
Proof.
  intros c m b fail s G HC HM. assert (Z : tame None s s) by apply tame_po.
  apply wp_bind, wp_when; intros _; [apply wp_raise; left; auto|]. apply wp_bind, wp_stat, wp_bind.
  set (pf := when _ _).
  assert (P1 : wp pf (fun _ s1 => tame None s s1 /\ GI none s1) (fun _ s1 => tame None s s1 /\ GI none s1) s).
  { assert (F1 : frames (tame None) pf) by (unfold pf; fgo (tame_po None); auto using ta_check_notdata, ta_check_notmain, ta_remove, ta_check_fail).
    assert (F2 : frames (RG none) pf) by (unfold pf; fgo (RG_po none); auto with gq).
    eapply wp_conseq; [apply (wp_and _ _ _ _ _ _ _ (frames_wp _ _ _ s F1) (frames_wp _ _ _ s F2)) | |]; cbv beta; intros ? s1 (A & B); auto. }
  assert (P2 : wp pf (fun _ s1 => c_requests (comps s1 c) = []) (fun _ _ => True) s).
  { unfold pf. apply wp_when; intros E.
    - apply wp_bind. eapply wp_conseq; [apply (frames_wp _ (fun _ _ => True)); intros ?; exact Logic.I | |]; cbv beta; auto. intros _ s1 _.
      apply wp_bind. eapply wp_conseq; [apply (frames_wp _ (fun _ _ => True)); intros ?; exact Logic.I | |]; cbv beta; auto. intros _ s2 _.
      apply wp_bind. eapply wp_conseq; [apply (frames_wp _ (fun _ _ => True)); intros ?; exact Logic.I | |]; cbv beta; auto. intros _ s3 _.
      apply w_check_fail_noreq; auto.
    - apply negb_false_iff, steqb_iff in E. auto. }
  eapply wp_conseq; [apply (wp_and _ _ _ _ _ _ _ P1 P2) | |]; cbv beta; [|intros e s1 ((A & B) & _); left; auto].
  intros _ s1 ((T1 & G1) & E1). apply wp_bind.
  eapply wp_conseq; [apply (frames_wp _ (tame (Some c)) _ s1 (ta_fail_time (Some c) fail)) | |]; cbv beta; [|intros e s2 T2; right; exists s1; auto].
  intros t s2 T2. apply wp_bind, wp_setc.
  eapply wp_conseq; [apply (frames_wp _ (tame (Some c)) _ _ (HM t)) | |]; cbv beta; intros ? s3 T3; right; exists s1; (split; [auto|]; split; [auto|]; split; [auto|]);
    (eapply (po_trans _ (tame_po (Some c))); [exact T2|]; eapply (po_trans _ (tame_po (Some c))); [|exact T3]; taf (Some c)).
Qed.
Lemma cut_from : forall n c ks f key rp fl fp u cap s, GI none s -> (c_status (comps s c) = Current -> c_requests (comps s c) = []) ->
  wp (from_store n c ks f key rp fl fp u cap) (fun _ s' => cut c s s') (fun _ s' => cut c s s') s.
Proof.
  intros. unfold from_store. apply cut_store; auto. intros t. fgo (tame_po (Some c)); try (solve [taf (Some c)]); auto using ta_item_leave, ta_remove, ta_reschedule; unfold q_enter; fgo (tame_po (Some c)); taf (Some c).
Qed.
Lemma cut_to : forall n c ks i rp p fl fp u cap s, GI none s -> (c_status (comps s c) = Current -> c_requests (comps s c) = []) ->
  wp (to_store n c ks i rp p fl fp u cap) (fun _ s' => cut c s s') (fun _ s' => cut c s s') s.
Proof.
  intros. unfold to_store. apply cut_store; auto. intros t. fgo (tame_po (Some c)); try (solve [taf (Some c)]); auto using ta_to_try, ta_reschedule; unfold q_enter; fgo (tame_po (Some c)); taf (Some c).
Qed.

(** ** All calls *)
(** no request is made on behalf of an interrupted component *)
Definition lively (s : env) (o : op) : Prop := match o with ORequest c _ _ _ _ _ _ => c_status (comps s c) <> Interrupted | _ => True end.
Lemma wp_exec : forall A (m : M A) (Q : A -> env -> Prop) (X : exn -> env -> Prop) s s' r, wp m Q X s -> m s = (s', r) -> match r with Ok a => Q a s' | Er e => X e s' end.
Proof. intros A m Q X s s' r W E. unfold wp in W. rewrite E in W. exact W. Qed.
(** the components whose own scheduling a call in s changes *)
Definition handled (s : env) (o : op) (d : nat) : Prop :=
  match o with
  | OCancel c => d = c
  | OEnd => d = cur s
  | ORequest c args _ _ _ _ _ => d = c \/ exists r, In r (map (fun a => fst (fst a)) args) /\ r_preempt (rsc s r) = true /\ mem s (QClaim r) d
  | OStep => d = main \/ In d (pend s) \/ exists e l, ev_pop (evl s) = Some (e, l) /\ d = e_c e
  | _ => False
  end.
Lemma Post_exec : forall n o s s' r, QI s -> Rest s -> wf s o -> lively s o -> exec n o s = (s', r) ->
  (forall e, r = Er e -> caught o e /\ calm o /\ still_op o = true) -> Post0 s s' /\ (still_op o = false -> fpath (handled s o) anyl s s').
Proof.
  intros n o s s' r QS RS W L E C.
  assert (G' : GI none s') by (apply (QI_exec n o s s' r); auto; intros e K; destruct (C e K) as (A & B & _); auto).
  pose proof RS as (JS & SSS & NT).
  assert (OKR : still_op o = false -> exists a, r = Ok a).
  { intros K. destruct r as [a|e]; [eauto|]. destruct (C e eq_refl) as (_ & _ & D). congruence. }
  assert (TAM : tame None s s' -> Post0 s s') by (intros T; apply Post0_tame; auto).
  assert (CUT : forall c, cut c s s' -> Post0 s s') by (intros c T; eapply Post_cut; eauto).
  assert (ST : forall c, c_status (comps s c) = Current -> c_requests (comps s c) = []).
  { intros c K. apply (ki_l _ (qi_k _ QS) c). rewrite K. apply idle_cur. }
  assert (CU : forall c, wp (exec n o) (fun _ s' => cut c s s') (fun _ s' => cut c s s') s -> Post0 s s').
  { intros c H. pose proof (wp_exec _ _ _ _ _ _ _ H E) as K. apply (CUT c). destruct r; exact K. }
  destruct (still_op o) eqn:SO.
  - split; [|discriminate].
    destruct o; try discriminate; try (apply TAM; auto; change s' with (fst (s', r)); rewrite <- E; apply ta_exec; auto; fail).
    + apply TAM; auto. change s' with (fst (s', r)). rewrite <- E. cbn [exec].
      destruct (steqb (c_status (comps s c)) Interrupted) eqn:B; [apply steqb_iff in B; apply ta_resume; apply (ki_l _ (qi_k _ QS) c); auto|].
      unfold resume, bind, stat, get. cbn beta iota. rewrite B. apply tame_po.
    + apply (CU c). cbn [exec]. apply cut_from; auto. apply JS.
    + apply (CU c). cbn [exec]. apply cut_to; auto. apply JS.
  - pose proof (Rest_Post (handled s o) _ RS) as P0.
    assert (FIN : Post (handled s o) s s' -> Post0 s s' /\ (false = false -> fpath (handled s o) anyl s s')).
    { intros (A1 & A2 & A3 & A4). split; [split; auto | auto]. }
    apply FIN. destruct (OKR eq_refl) as (a & ->).
    assert (H : wp (exec n o) (fun _ s' => Post (handled s o) s s') (fun _ _ => True) s).
    { destruct o; try discriminate; cbn [exec].
      - apply Post_cancel; auto. reflexivity.
      - apply Post_request; auto; [left; auto | | destruct W as (_ & _ & W & _); auto].
        intros x d I P M. right. exists x. auto.
      - apply Post_release; auto.
      - apply Post_res_release; auto.
      - apply Post_set_cap; auto.
      - apply Post_step; auto; [left; auto | right; left; auto | right; right; eauto].
      - apply wp_bind, wp_get. apply Post_terminate; auto. reflexivity. }
    exact (wp_exec _ _ _ _ _ _ _ H E).
Qed.
(** executions in which the calls that take or give resources do not raise *)
Inductive runs_k : env -> env -> Prop :=
| rk_refl : forall s, runs_k s s
| rk_step : forall s s1 o s2 n r, runs_k s s1 -> wf s1 o -> lively s1 o -> exec n o s1 = (s2, r) ->
    (forall e, r = Er e -> caught o e /\ calm o /\ still_op o = true) -> runs_k s s2.
Definition reach_k (s : env) : Prop := exists t0 R sv kc hp y d, fresh R /\ runs_k (init t0 R sv kc hp y d) s.
Lemma runs_k_p : forall s s', runs_k s s' -> runs_p (fun _ _ => True) s s'.
Proof. induction 1 as [|s s1 o s2 n r H IH W L E C]; [constructor|]. eapply rpp_step; eauto. intros e K. destruct (C e K) as (A & B & _); auto. Qed.
Lemma reach_k_p : forall s, reach_k s -> reach_p (fun _ _ => True) s.
Proof. intros s (t0 & R & sv & kc & hp & y & d & F & H). exists t0, R, sv, kc, hp, y, d. split; auto. apply runs_k_p; auto. Qed.
Lemma Rest_init : forall t0 R sv kc hp y d, fresh R -> Rest (init t0 R sv kc hp y d).
Proof.
  intros t0 R sv kc hp y d F. split; [|split].
  - constructor; [apply (qi_g _ (QI_init t0 R sv kc hp y d)) | apply AM_init; auto|].
    intros c r q I. destruct (comps_init t0 R sv kc hp y d c) as (b & st & E). rewrite E in I. destruct I.
  - intros c (_ & W). destruct (comps_init t0 R sv kc hp y d c) as (b & st & E). rewrite E in W. contradiction.
  - intros r. apply (fresh_at R r F).
Qed.
Lemma reach_k_Rest : forall s, reach_k s -> Rest s.
Proof.
  intros s (t0 & R & sv & kc & hp & y & d & F & H).
  assert (K : forall a b, runs_k a b -> QI a -> Rest a -> QI b /\ Rest b).
  { induction 1 as [|a s1 o s2 n r H0 IH W L E C]; intros; auto. destruct IH as (Q1 & R1); auto.
    split; [apply (QI_exec n o s1 s2 r); auto; intros e X; destruct (C e X) as (A & B & _); auto|]. eapply Post0_Rest; [exact R1|]. eapply Post_exec; eauto. }
  apply (K _ _ H); [apply QI_init | apply Rest_init; auto].
Qed.
