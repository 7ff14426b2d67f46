(** Property C67: peek() tells when the next component becomes current. *)
From Coq Require Import QArith Lqa List Bool Arith ZArith Lia.
From Verif Require Import Base Kernel Wp KernelE KernelL KernelX KernelT KernelQ KernelS KernelC PropSched PropCalls.
Import ListNotations.
Open Scope Q_scope.

(** ** Model *)
(** Environment.peek 13104-13113.  [_event_list[0]] of a heap is its least entry. *)
Definition peek (s : env) : xq :=
  if nonnil (pend s) then Fin (now s)
  else match evl s with
       | x :: t => Fin (e_t (ev_min x t))
       | [] => if eoe s then Fin (now s) else PInf
       end.

(** ** Specification *)
(** the internal clock; it stands at infinity after a run has ended because nothing was left to do *)
Definition clock (s : env) : xq := if ended s then PInf else Fin (now s).
(** the clock as the user sees it *)
Definition user_clock (s : env) : xq := if ended s then PInf else Fin (now s - off s).

(** what a step does to the clock *)
Lemma step_clock : forall n s s' r, ended s = false -> exec n OStep s = (s', r) ->
  (standby_turn s (cur s') /\ clock s' = clock s) \/
  ((forall c, ~ standby_turn s c) /\
   clock s' = match evl s with
              | x :: t => Fin (e_t (ev_min x t))
              | [] => if eoe s then Fin (now s) else PInf
              end).
Proof.
  intros n s s' r NE E. cbn [exec] in E.
  assert (W : wp (step n)
    (fun _ s' => (standby_turn s (cur s') /\ clock s' = clock s) \/
       ((forall c, ~ standby_turn s c) /\
        clock s' = match evl s with x :: t => Fin (e_t (ev_min x t)) | [] => if eoe s then Fin (now s) else PInf end))
    (fun _ s' => (standby_turn s (cur s') /\ clock s' = clock s) \/
       ((forall c, ~ standby_turn s c) /\
        clock s' = match evl s with x :: t => Fin (e_t (ev_min x t)) | [] => if eoe s then Fin (now s) else PInf end)) s).
  { apply w_step.
    - intros c t SK PD ST.
      assert (T : standby_turn s c) by (unfold standby_turn; rewrite PD; auto).
      split; [intros _; left; split; auto|]. intros _.
      eapply wp_conseq; [apply (frames_wp _ Rt _ _ (t_continue n c)) | |]; cbv beta; unfold Rt; cbn;
        intros ? s2 (A & B & C & _); left; unfold clock; rewrite A, B, C; auto.
    - intros D.
      assert (T : forall c, ~ standby_turn s c).
      { intros c (T1 & T2 & T3). destruct D as [D|[D|(c' & t & D & D')]].
        - congruence.
        - rewrite D in T2. discriminate.
        - rewrite D in T2. injection T2 as ->. congruence. }
      assert (Z : ended (shuffle (dropped s)) = false).
      { rewrite <- NE. unfold shuffle, dropped. destruct (c_skip _), (pend s); cbn; destruct (nonnil _); auto. }
      assert (Y : eoe (shuffle (dropped s)) = eoe s).
      { unfold shuffle, dropped. destruct (c_skip _), (pend s); cbn; destruct (nonnil _); auto. }
      split.
      + intros e l' EP. destruct (evl s) as [|x t]; [discriminate|].
        assert (EE : ev_min x t = e) by (cbn in EP; congruence). rewrite EE. cbv zeta.
        assert (P : forall s2, Rt (disp (e_c e) (taken e l' (shuffle (dropped s)))) s2 ->
          (forall c, ~ standby_turn s c) /\ clock s2 = Fin (e_t e)).
        { intros s2 (A & _ & B & _). split; auto. unfold clock. rewrite A, B. cbn. rewrite Z. auto. }
        split.
        * intros _. right. apply P. repeat split.
        * intros _. apply wp_bind.
          eapply wp_conseq; [apply (frames_wp _ Rt _ _ (t_check_fail (e_c e))) | |]; cbv beta.
          -- intros ? s2 A2.
             eapply wp_conseq; [apply (frames_wp _ Rt _ _ (t_continue n (e_c e))) | |]; cbv beta;
               intros _ s3 A3; right; apply P; eapply (po_trans _ Rt_po); eauto.
          -- intros ? s2 A2. right. auto.
      + intros EE. rewrite EE. right. split; auto. unfold clock. cbn. unfold emptied. rewrite Y.
        destruct (eoe s); cbn; rewrite ?Z, ?now_sd; auto. }
  unfold wp in W. rewrite E in W. destruct r; exact W.
Qed.

(** ** C67 *)
(** Nothing becomes current before the time that peek gives, whatever is on standby, cancelled or
    skipped. *)
Theorem C67_not_before : forall s n s' r, started s -> ended s = false -> exec n OStep s = (s', r) ->
  xle (peek s) (clock s').
Proof.
  intros s n s' r H NE E.
  assert (N : xle (Fin (now s)) (clock s')).
  { unfold clock. destruct (ended s'); [exact Logic.I|]. apply (f_any _ _ _ _ _ (started_Fut _ H) E). }
  unfold peek. destruct (pend s) as [|p ps] eqn:PD; [|exact N]. cbn [nonnil].
  destruct (step_clock _ _ _ _ NE E) as [((_ & T & _) & _)|(_ & C)].
  - rewrite PD in T. discriminate.
  - rewrite C. apply xle_refl.
Qed.
(** As long as the current component does not have skip_standby, the component that becomes current
    next does so exactly then, also if there are components on standby; if that is never (inf), the
    run ends with the clock at infinity. *)
Theorem C67_exact_partial : forall s n s' r, reach_t s -> ended s = false -> c_skip (comps s (cur s)) = false ->
  exec n OStep s = (s', r) -> clock s' = peek s.
Proof.
  intros s n s' r H NE SK E. unfold peek. destruct (step_clock _ _ _ _ NE E) as [((_ & T & _) & C)|(N & C)].
  - destruct (pend s) as [|p ps] eqn:PD; [discriminate|]. cbn [nonnil]. rewrite C. unfold clock. rewrite NE. auto.
  - destruct (pend s) as [|p ps] eqn:PD; [exact C|]. exfalso. apply (N p). unfold standby_turn. rewrite PD.
    repeat split; auto. pose proof (reach_t_PI _ H) as [_ B]. apply (sb_st _ B p). unfold LS. rewrite PD, in_app_iff.
    right; left; auto.
Qed.
(** With skip_standby it is exact if no standby component is still to be resumed. *)
Theorem C67_exact_skip_partial : forall s n s' r, ended s = false -> pend s = [] -> exec n OStep s = (s', r) ->
  clock s' = peek s.
Proof.
  intros s n s' r NE PD E. unfold peek. rewrite PD. cbn [nonnil].
  destruct (step_clock _ _ _ _ NE E) as [((_ & T & _) & _)|(_ & C)]; [|exact C].
  rewrite PD in T. discriminate.
Qed.
(** Between two steps no call makes anything become current or moves the clock, so that time is
    the one of the next component to become current unless a call changes what is pending. *)
Theorem C67_only_steps : forall s n o s' r, o <> OStep -> exec n o s = (s', r) ->
  clock s' = clock s /\ cur s' = cur s.
Proof.
  intros s n o s' r N E. pose proof (t_exec n o N s) as F. rewrite E in F. destruct F as (A & B & C & _).
  cbn in *. unfold clock. rewrite A, C. auto.
Qed.

(** The two ways in which peek is wrong: *)
(** the current component has skip_standby: the standby components do not get their turn yet *)
Definition skipping : list op :=
  [ OCreate 1 None (Fin 0) (Fin 0) false false None; OCreate 2 None (Fin 0) (Fin 0) false true None;
    ORun (SDur (Fin 100)) PInf false None;
    OStep; OStandby 1; OStep; OHold 2 (SDur (Fin 7)) (Fin 0) false 0 None ].
Theorem C67_skip_standby_refuted : exists s s', started s /\ exec 9 OStep s = (s', Ok tt) /\
  peek s = Fin 0 /\ cur s' = 2%nat /\ clock s' = Fin 7.
Proof.
  destruct (script 9 skipping env0) as [s|] eqn:E; [|vm_compute in E; discriminate].
  exists s. destruct (exec 9 OStep s) as [s' r] eqn:E'. exists s'.
  assert (ST : started s) by (exists 0; do 6 eexists; eapply runs_calls, script_runs; exact E).
  split; [exact ST|]. vm_compute in E. injection E as <-. vm_compute in E'.
  injection E' as <- <-. repeat split; vm_compute; reflexivity.
Qed.
(** after reset_now peek still counts from the old zero *)
Definition renamed : list op :=
  [ OCreate 1 None (Fin 2) (Fin 0) false false None; ORun (SDur (Fin 100)) PInf false None; OStep;
    OResetNow 0; OHold 1 (SDur (Fin 5)) (Fin 0) false 0 None ].
Theorem C67_reset_now_refuted : exists s s' t, started s /\ exec 9 OStep s = (s', Ok tt) /\
  peek s = Fin 7 /\ cur s' = 1%nat /\ user_clock s' = Fin t /\ t == 5.
Proof.
  destruct (script 9 renamed env0) as [s|] eqn:E; [|vm_compute in E; discriminate].
  exists s. destruct (exec 9 OStep s) as [s' r] eqn:E'. exists s', 5.
  assert (ST : started s) by (exists 0; do 6 eexists; eapply runs_calls, script_runs; exact E).
  split; [exact ST|]. vm_compute in E. injection E as <-. vm_compute in E'.
  injection E' as <- <-. repeat split; vm_compute; reflexivity.
Qed.

(** the hypotheses can be met: three pending events, and a standby component that gets its turn *)
Example C67_case : exists s s', started s /\ ended s = false /\ pend s = [] /\ length (evl s) = 3%nat /\
  exec 9 OStep s = (s', Ok tt) /\ peek s = Fin 5 /\ cur s' = 1%nat /\ clock s' = Fin 5.
Proof.
  destruct (script 9 two_holds env0) as [s|] eqn:E; [|vm_compute in E; discriminate].
  exists s. destruct (exec 9 OStep s) as [s' r] eqn:E'. exists s'.
  assert (ST : started s) by (exists 0; do 6 eexists; eapply runs_calls, script_runs; exact E).
  split; [exact ST|]. vm_compute in E. injection E as <-. vm_compute in E'.
  injection E' as <- <-. repeat split; vm_compute; reflexivity.
Qed.
Definition on_standby : list op :=
  [ OCreate 1 None (Fin 0) (Fin 0) false false None; OCreate 2 None (Fin 0) (Fin 0) false false None;
    ORun (SDur (Fin 100)) PInf false None; OStep; OStandby 1; OStep; OHold 2 (SDur (Fin 7)) (Fin 0) false 0 None ].
Example C67_case_standby : exists s s', reach_t s /\ ended s = false /\ c_skip (comps s (cur s)) = false /\
  pend s = [1%nat] /\ exec 9 OStep s = (s', Ok tt) /\ cur s' = 1%nat /\ clock s' = Fin 0.
Proof.
  destruct (script 9 on_standby env0) as [s|] eqn:E; [|vm_compute in E; discriminate].
  exists s. destruct (exec 9 OStep s) as [s' r] eqn:E'. exists s'.
  assert (ST : reach_t s) by (exists 0; do 6 eexists; eapply script_runs_t; exact E).
  split; [exact ST|]. vm_compute in E. injection E as <-. vm_compute in E'.
  injection E' as <- <-. repeat split; vm_compute; reflexivity.
Qed.
(** and peek = inf: a run till infinity with nothing scheduled *)
Example C67_case_inf : exists s s', started s /\ ended s = false /\ peek s = PInf /\
  exec 9 OStep s = (s', Ok tt) /\ clock s' = PInf.
Proof.
  destruct (script 9 [ORun (STill PInf) PInf false None] env0) as [s|] eqn:E; [|vm_compute in E; discriminate].
  exists s. destruct (exec 9 OStep s) as [s' r] eqn:E'. exists s'.
  assert (ST : started s) by (exists 0; do 6 eexists; eapply runs_calls, script_runs; exact E).
  split; [exact ST|]. vm_compute in E. injection E as <-. vm_compute in E'.
  injection E' as <- <-. repeat split; vm_compute; reflexivity.
Qed.

Print Assumptions C67_not_before.
Print Assumptions C67_exact_partial.
Print Assumptions C67_exact_skip_partial.
