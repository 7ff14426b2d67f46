(** A component that waits in queues of one kind is left alone by everything that is not directed at it, until
    it is honored or a scheduler step makes it current. *)
From Coq Require Import QArith Lqa List Bool Arith ZArith Lia.
From Verif Require Import Base Kernel Wp KernelE KernelL KernelX KernelT KernelU KernelR KernelQ KernelS KernelI KernelP KernelB KernelC KernelG KernelV.
Import ListNotations.
Open Scope Q_scope.

Lemma v_step : forall md x n s, md <> MStill -> Seqs s -> NQm md x s -> (~ LS s x \/ done md (comps s x)) ->
  wp (step n) (fun _ s' => cur s' <> x -> NQm md x s' /\ ((~ LS s' x /\ keep x s s') \/ done md (comps s' x)))
    (fun _ s' => cur s' <> x -> NQm md x s' /\ ((~ LS s' x /\ keep x s s') \/ done md (comps s' x))) s.
Proof.
  intros md x n s HS SQ N O.
  set (G := fun (s1 s' : env) => cur s' = cur s1 /\ (cur s1 <> x -> Rm md x s1 s')).
  assert (GO : preorder G).
  { constructor; unfold G; [intros; split; auto; intros; apply Rm_po|]. intros a b d (A1 & A2) (B1 & B2).
    split; [congruence|]. intros K. eapply (Rm_po md x); [apply A2; auto | apply B2; congruence]. }
  assert (FC : forall c, frames (fun s1 s' => c = cur s1 -> G s1 s') (check_fail c)).
  { intros c z E. split; [apply t_check_fail|]. intros K. apply v_check_fail. congruence. }
  assert (FK : forall c, frames (fun s1 s' => c = cur s1 -> G s1 s') (continue n c)).
  { intros c z E. split; [apply t_continue|]. intros K. apply v_continue; auto. congruence. }
  assert (FIN : forall s1 s', (cur s1 <> x -> NQm md x s1 /\ (~ LS s x -> keep x s s1) /\ comps s1 x = comps s x) -> G s1 s' -> cur s' <> x ->
      NQm md x s' /\ ((~ LS s' x /\ keep x s s') \/ done md (comps s' x))).
  { intros s1 s' A (B & D) K. assert (K1 : cur s1 <> x) by congruence. destruct (A K1) as (A1 & A2 & A3). destruct (D K1 A1) as (D1 & D2). split; auto.
    destruct D2 as [D2|D2]; auto. destruct O as [O|O].
    - specialize (A2 O). assert (K2 : keep x s s') by (eapply keep_trans; eauto). left. split; auto.
      apply LS_inl in O. apply LS_inl. destruct K2 as (_ & _ & E1 & E2). intuition congruence.
    - right. eapply keep_done; eauto. rewrite A3. auto. }
  apply w_step.
  - intros c t SK PD ST.
    set (s1 := s_cur c (m_comp c (w_sched PInf) (m_comp c (w_status Current) (s_pend t s)))).
    assert (A : cur s1 <> x -> NQm md x s1 /\ (~ LS s x -> keep x s s1) /\ comps s1 x = comps s x).
    { intros K. cbn in K. split; [exact N|]. unfold keep, s1. cbn [comps s_cur]. rewrite !comps_diff by auto. split; [|reflexivity]. intros _. repeat split.
      cbn. rewrite PD. unfold inl. cbn. destruct (Nat.eqb_spec x c); [congruence | auto]. }
    split; [intros ->; apply FIN with (s1 := s1); auto; apply GO|]. intros _.
    eapply wp_conseq; [apply (frames_wp _ _ _ s1 (FK c)) | |]; cbv beta; intros ? s' K; apply FIN with (s1 := s1); auto.
  - intros D0.
    assert (SH : qs (shuffle (dropped s)) = qs s /\ comps (shuffle (dropped s)) = comps s /\ evl (shuffle (dropped s)) = evl s /\ (~ LS s x -> ~ LS (shuffle (dropped s)) x)).
    { assert (DR : qs (dropped s) = qs s /\ comps (dropped s) = comps s /\ evl (dropped s) = evl s /\ (~ LS s x -> ~ LS (dropped s) x)).
      { unfold dropped. destruct (c_skip (comps s (cur s))); auto. destruct (pend s) as [|h t] eqn:PD; auto. repeat split; auto.
        intros L K. apply L. unfold LS in *. cbn in K. rewrite PD. rewrite in_app_iff in *. cbn. tauto. }
      destruct DR as (A1 & A2 & A3 & A4). unfold shuffle. destruct (nonnil (stby (dropped s))); auto. repeat split; auto.
      intros L K. apply (A4 L). unfold LS in *. cbn in K. rewrite in_app_iff. auto. }
    destruct SH as (S1 & S2 & S3 & S4).
    assert (S5 : ~ LS s x -> inl x (stby (shuffle (dropped s))) = inl x (stby s) /\ inl x (pend (shuffle (dropped s))) = inl x (pend s)).
    { intros L. specialize (S4 L). apply LS_inl in S4. apply LS_inl in L. destruct S4, L. split; congruence. }
    split.
    + intros e l' EP. cbv zeta. set (s1 := disp (e_c e) (taken e l' (shuffle (dropped s)))).
      pose proof (NoDup_abs_seq _ (incr_nodup _ _ _ SQ)) as ND. apply ev_pop_spec in EP; auto. destruct EP as (l1 & l2 & EV & EL' & _).
      assert (A : cur s1 <> x -> NQm md x s1 /\ (~ LS s x -> keep x s s1) /\ comps s1 x = comps s x).
      { intros K. cbn in K. assert (CX : comps s1 x = comps s x).
        { unfold s1, disp, taken. rewrite !comps_diff by auto. cbn [comps s_cur s_now]. rewrite comps_diff by auto. cbn [comps s_evl]. rewrite S2. auto. }
        split; [|split; auto].
        - intros q Q M. apply (N q Q). unfold mem in *. cbn in M. rewrite S1 in M. auto.
        - intros L. destruct (S5 L) as (S6 & S7). unfold keep. rewrite CX.
          split; auto. split; [|split; [exact S6 | exact S7]].
          unfold evs at 1. cbn. subst l'. apply evs_del with (e := e); auto. }
      split.
      * intros _. apply FIN with (s1 := s1); auto. split; auto. intros _. apply v_same; auto.
      * intros _. apply wp_bind. eapply wp_conseq; [apply (frames_wp _ _ _ s1 (FC (e_c e))) | |]; cbv beta; intros ? s2 K2; specialize (K2 eq_refl).
        -- eapply wp_conseq; [apply (frames_wp _ _ _ s2 (FK (e_c e))) | |]; cbv beta; intros ? s3 K3; apply FIN with (s1 := s1); auto;
             (eapply GO; [exact K2 | apply K3; destruct K2 as (-> & _); reflexivity]).
        -- apply FIN with (s1 := s1); auto.
    + intros EV. set (s1 := s_running false (disp main (emptied (shuffle (dropped s))))).
      apply FIN with (s1 := s1); [|apply GO]. intros K.
      assert (K' : x <> main). { unfold s1, emptied in K. destruct (eoe (shuffle (dropped s))); cbn in K; congruence. }
      assert (CX : comps s1 x = comps s x).
      { unfold s1, disp, emptied. destruct (eoe (shuffle (dropped s))); cbn [comps s_running]; rewrite !comps_diff by auto; cbn [comps s_cur s_ended]; rewrite !comps_diff by auto; rewrite S2; auto. }
      split; [|split; auto].
      * intros q Q M. apply (N q Q). unfold mem in *. unfold s1, emptied in M. destruct (eoe (shuffle (dropped s))); cbn in M; rewrite S1 in M; auto.
      * intros L. destruct (S5 L) as (S6 & S7). unfold keep. rewrite CX. split; auto. unfold evs, s1, emptied.
        destruct (eoe (shuffle (dropped s))); cbn; rewrite S3; split; auto; split; congruence.
Qed.
Lemma idle_of_wait : forall md x s s', md <> MStill -> md <> MHold -> idle_of x s s' -> Seqs s -> NQm md x s -> ~ LS s x ->
  NQm md x s' /\ ((~ LS s' x /\ keep x s s') \/ done md (comps s' x)).
Proof.
  intros md x s s' HS HH. induction 1 as [|s s1 n o s2 r I IH E D C]; intros SQ N L; [split; auto; left; split; auto; apply keep_refl|].
  destruct (IH SQ N L) as (N1 & K1). destruct (op_step_dec o) as [->|NS].
  - assert (SQ1 : Seqs s1) by (apply (s_calls _ _ (idle_of_calls _ _ _ I)); auto).
    assert (O1 : ~ LS s1 x \/ done md (comps s1 x)) by tauto.
    pose proof (v_step md x n s1 HS SQ1 N1 O1) as W. unfold wp in W. cbn [exec] in E. rewrite E in W.
    assert (W' : NQm md x s2 /\ ((~ LS s2 x /\ keep x s1 s2) \/ done md (comps s2 x))) by (destruct r; apply W; auto).
    destruct W' as (W1 & W2). split; auto. destruct W2 as [(W2 & W3)|W2]; auto. destruct K1 as [(K1 & K2)|K1].
    + left. split; auto. eapply keep_trans; eauto.
    + right. eapply keep_done; eauto.
  - pose proof (v_exec x md HS n o s1 (fun _ => HH) NS N1 D) as W. unfold wp in W. rewrite E in W.
    assert (W' : Rm md x s1 s2) by (destruct r; auto). destruct (W' N1) as (W1 & W2). split; auto.
    destruct W2 as [W2|W2]; auto. destruct K1 as [(K1 & K2)|K1].
    + left. assert (K3 : keep x s s2) by (eapply keep_trans; eauto). split; auto.
      apply LS_inl in K1. apply LS_inl. destruct W2 as (_ & _ & E1 & E2). intuition congruence.
    + right. eapply keep_done; eauto.
Qed.

(** ** Reachable states *)
Lemma OneK_init : forall t0 R sv kc hp y d, OneK (init t0 R sv kc hp y d).
Proof. intros t0 R sv kc hp y d c k k' A. destruct (comps_init t0 R sv kc hp y d c) as (b & st & E). rewrite E in A. destruct k; cbn in A; congruence. Qed.
Lemma reach_p_one : forall P s, reach_p P s -> OneK s.
Proof.
  intros P s (t0 & R & sv & kc & hp & y & d & F & H).
  apply (inv_runs P OneK) with (s := init t0 R sv kc hp y d); auto using QI_init, OneK_init.
  intros s1 o n s2 r Q _ _ E _ O. eapply OneK_exec; eauto; apply Q.
Qed.
Definition fld_of (m : mode) : fld := match m with MReq | MStill => FR | MWait | MHold => FW | MFrom => FF | MTo => FT end.
Lemma one_NQm : forall m x s, GI none s -> OneK s -> g (fld_of m) (comps s x) <> [] -> NQm m x s.
Proof.
  intros m x s G O N q R M.
  assert (E : reg q = true) by (destruct q, m; auto). apply (gi_mem _ _ G q x E) in M. destruct M as (M & _).
  assert (Z : forall k, g k (comps s x) <> [] -> k = fld_of m) by (intros; apply (O x); auto).
  assert (H : forall (i : nat) l, In i l -> l <> []) by (intros ? ? ? ->; contradiction).
  destruct q; cbn in M; try (destruct m; discriminate R); [specialize (Z FR) | specialize (Z FW) | specialize (Z FF) | specialize (Z FT)];
    cbn in Z; specialize (Z (H _ _ M)); destruct m; discriminate.
Qed.
