(** A component that is in no queue and in no standby list is left alone by everything that is not
    directed at it, until a scheduler step makes it current. *)
From Coq Require Import QArith Lqa List Bool Arith ZArith Lia.
From Verif Require Import Base Kernel Wp KernelE KernelL KernelX KernelT KernelU KernelR KernelQ KernelS.
Import ListNotations.
Open Scope Q_scope.

Definition out (x : nat) (s : env) : Prop := NQ x s /\ ~ LS s x.
Lemma inl_nil : forall x l, inl x l = [] <-> ~ In x l.
Proof.
  intros x l. unfold inl. induction l as [|y t IH]; cbn; [tauto|]. destruct (Nat.eqb_spec x y) as [->|N].
  - split; [discriminate | tauto].
  - rewrite IH. intuition congruence.
Qed.
Lemma LS_inl : forall s x, ~ LS s x <-> inl x (stby s) = [] /\ inl x (pend s) = [].
Proof. intros. unfold LS. rewrite in_app_iff, !inl_nil. tauto. Qed.
Lemma out_keep : forall x s s', out x s -> NQ x s' -> keep x s s' -> out x s'.
Proof. intros x s s' (A & B) N (_ & _ & C & D). split; auto. apply LS_inl in B. apply LS_inl. intuition congruence. Qed.
Lemma evs_del : forall x s l1 e l2, evl s = l1 ++ e :: l2 -> e_c e <> x -> filter (fun e => Nat.eqb (e_c e) x) (l1 ++ l2) = evs x s.
Proof. intros x s l1 e l2 E N. unfold evs. rewrite E, !filter_app. cbn. destruct (Nat.eqb_spec (e_c e) x); [congruence | auto]. Qed.
Lemma x_step : forall x n s, Seqs s -> out x s ->
  wp (step n) (fun _ s' => cur s' <> x -> out x s' /\ keep x s s') (fun _ s' => cur s' <> x -> out x s' /\ keep x s s') s.
Proof.
  intros x n s SQ O. pose proof O as (N & L).
  set (G := fun (s1 s' : env) => cur s' = cur s1 /\ (cur s1 <> x -> Rx x s1 s')).
  assert (GO : preorder G).
  { constructor; unfold G; [intros; split; auto; intros; apply Rx_po|]. intros a b d (A1 & A2) (B1 & B2).
    split; [congruence|]. intros K. eapply (Rx_po x); [apply A2; auto | apply B2; congruence]. }
  assert (FC : forall c, frames (fun s1 s' => c = cur s1 -> G s1 s') (check_fail c)).
  { intros c z E. split; [apply t_check_fail|]. intros K. apply x_check_fail. congruence. }
  assert (FK : forall c, frames (fun s1 s' => c = cur s1 -> G s1 s') (continue n c)).
  { intros c z E. split; [apply t_continue|]. intros K. apply x_continue. congruence. }
  assert (FIN : forall s1 s', (cur s1 <> x -> NQ x s1 /\ keep x s s1) -> G s1 s' -> cur s' <> x -> out x s' /\ keep x s s').
  { intros s1 s' A (B & D) K. assert (K1 : cur s1 <> x) by congruence. destruct (A K1) as (A1 & A2). destruct (D K1 A1) as (D1 & D2).
    assert (K2 : keep x s s') by (eapply keep_trans; eauto). split; auto. eapply out_keep; eauto. }
  apply w_step.
  - intros c t SK PD ST.
    set (s1 := s_cur c (m_comp c (w_sched PInf) (m_comp c (w_status Current) (s_pend t s)))).
    assert (A : cur s1 <> x -> NQ x s1 /\ keep x s s1).
    { intros K. cbn in K. split; [exact N|]. unfold keep, s1. cbn [comps s_cur]. rewrite !comps_diff by auto. repeat split.
      cbn. rewrite PD. unfold inl. cbn. destruct (Nat.eqb_spec x c); [congruence | auto]. }
    split; [intros ->; apply FIN with (s1 := s1); auto; apply GO|]. intros _.
    eapply wp_conseq; [apply (frames_wp _ _ _ s1 (FK c)) | |]; cbv beta; intros ? s' K; apply FIN with (s1 := s1); auto.
  - intros D0.
    assert (SH : qs (shuffle (dropped s)) = qs s /\ comps (shuffle (dropped s)) = comps s /\ evl (shuffle (dropped s)) = evl s /\ ~ LS (shuffle (dropped s)) x).
    { assert (DR : qs (dropped s) = qs s /\ comps (dropped s) = comps s /\ evl (dropped s) = evl s /\ ~ LS (dropped s) x).
      { unfold dropped. destruct (c_skip (comps s (cur s))); auto. destruct (pend s) as [|h t] eqn:PD; auto. repeat split; auto.
        intros K. apply L. unfold LS in *. cbn in K. rewrite PD. rewrite in_app_iff in *. cbn. tauto. }
      destruct DR as (A1 & A2 & A3 & A4). unfold shuffle. destruct (nonnil (stby (dropped s))); auto. repeat split; auto.
      intros K. apply A4. unfold LS in *. cbn in K. rewrite in_app_iff. auto. }
    destruct SH as (S1 & S2 & S3 & S4). apply LS_inl in S4. destruct S4 as (S4 & S5). pose proof L as L'. apply LS_inl in L'. destruct L' as (L1 & L2).
    split.
    + intros e l' EP. cbv zeta. set (s1 := disp (e_c e) (taken e l' (shuffle (dropped s)))).
      pose proof (NoDup_abs_seq _ (incr_nodup _ _ _ SQ)) as ND. apply ev_pop_spec in EP; auto. destruct EP as (l1 & l2 & EV & EL' & _).
      assert (A : cur s1 <> x -> NQ x s1 /\ keep x s s1).
      { intros K. cbn in K. split.
        - intros q Q M. apply (N q Q). unfold mem in *. cbn in M. rewrite S1 in M. auto.
        - unfold keep, s1, disp, taken. rewrite !comps_diff by auto. cbn [comps s_cur s_now]. rewrite comps_diff by auto. cbn [comps s_evl]. rewrite S2.
          split; auto. split; [|split; [exact (eq_trans S4 (eq_sym L1)) | exact (eq_trans S5 (eq_sym L2))]].
          unfold evs at 1. cbn. subst l'. apply evs_del with (e := e); auto. }
      split.
      * intros _. apply FIN with (s1 := s1); auto. split; auto. intros _. apply x_same; auto.
      * intros _. apply wp_bind. eapply wp_conseq; [apply (frames_wp _ _ _ s1 (FC (e_c e))) | |]; cbv beta; intros ? s2 K2; specialize (K2 eq_refl).
        -- eapply wp_conseq; [apply (frames_wp _ _ _ s2 (FK (e_c e))) | |]; cbv beta; intros ? s3 K3; apply FIN with (s1 := s1); auto;
             (eapply GO; [exact K2 | apply K3; destruct K2 as (-> & _); reflexivity]).
        -- apply FIN with (s1 := s1); auto.
    + intros EV. set (s1 := s_running false (disp main (emptied (shuffle (dropped s))))).
      apply FIN with (s1 := s1); [|apply GO]. intros K.
      assert (K' : x <> main). { unfold s1, emptied in K. destruct (eoe (shuffle (dropped s))); cbn in K; congruence. }
      split.
      * intros q Q M. apply (N q Q). unfold mem in *. unfold s1, emptied in M. destruct (eoe (shuffle (dropped s))); cbn in M; rewrite S1 in M; auto.
      * unfold keep, s1, disp, emptied, evs. destruct (eoe (shuffle (dropped s))); cbn [comps s_running]; rewrite !comps_diff by auto; cbn [comps s_cur s_ended];
          rewrite !comps_diff by auto; rewrite S2; split; auto; cbn; rewrite S3; split; auto; split; congruence.
Qed.
(** [idle_of x s s']: any number of calls with any outcome, none of them directed at x, and of scheduler
    steps that do not make x current *)
Inductive idle_of (x : nat) : env -> env -> Prop :=
| io_refl : forall s, idle_of x s s
| io_step : forall s s1 n o s2 r, idle_of x s s1 -> exec n o s1 = (s2, r) -> ~ directed x s1 o -> (o = OStep -> cur s2 <> x) -> idle_of x s s2.
Lemma idle_of_calls : forall x s s', idle_of x s s' -> calls s s'.
Proof. induction 1; [constructor|]. eapply calls_step; eauto. Qed.
Lemma op_step_dec : forall o, {o = OStep} + {o <> OStep}.
Proof. destruct o; (left; reflexivity) || (right; discriminate). Qed.
Lemma idle_of_keep : forall x s s', idle_of x s s' -> Seqs s -> out x s -> out x s' /\ keep x s s'.
Proof.
  induction 1 as [|s s1 n o s2 r I IH E D C]; intros SQ O; [split; [auto | apply keep_refl]|].
  destruct (IH SQ O) as (O1 & K1). destruct (op_step_dec o) as [->|NS].
  - assert (SQ1 : Seqs s1) by (apply (s_calls _ _ (idle_of_calls _ _ _ I)); auto).
    pose proof (x_step x n s1 SQ1 O1) as W. unfold wp in W. cbn [exec] in E. rewrite E in W.
    assert (W' : out x s2 /\ keep x s1 s2) by (destruct r; apply W; auto).
    destruct W'. split; auto. eapply keep_trans; eauto.
  - pose proof (x_exec x n o s1 NS (proj1 O1) D) as W. unfold wp in W. rewrite E in W.
    assert (W' : Rx x s1 s2) by (destruct r; auto). destruct (W' (proj1 O1)) as (N2 & K2).
    split; [eapply out_keep; eauto | eapply keep_trans; eauto].
Qed.
