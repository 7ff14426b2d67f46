(** Clock, current component and order of scheduling along executions. *)
From Coq Require Import QArith Lqa List Bool Arith ZArith Lia.
From Verif Require Import Base Kernel Wp KernelE KernelL KernelX.
Import ListNotations.
Open Scope Q_scope.

(** ** clock and current component only change in a step *)
Definition Rt (s s' : env) : Prop := now s' = now s /\ cur s' = cur s /\ ended s' = ended s /\ yl s' = yl s /\ defcap s' = defcap s.
Lemma Rt_po : preorder Rt. Proof. constructor; unfold Rt; intuition congruence. Qed.
Lemma t_remove : forall c, frames Rt (remove c).
Proof. intros. unfold remove. fgo Rt_po; repeat split. Qed.
Lemma t_push : forall c t p u cap, frames Rt (reschedule c t p u cap).
Proof. intros. unfold reschedule, push. fgo Rt_po; repeat split. Qed.
Lemma t_exec : forall n o, o <> OStep -> frames Rt (exec n o).
Proof.
  intros. apply (g_exec Rt Rt_po); auto using t_remove, t_push; repeat split.
Qed.
Lemma t_check_fail : forall c, frames Rt (check_fail c).
Proof. intros. apply (g_check_fail Rt Rt_po); repeat split. Qed.
Lemma t_r_try : forall n r, frames Rt (r_try n r).
Proof. intros. apply (g_r_try Rt Rt_po); auto using t_remove, t_push; repeat split. Qed.
Lemma t_continue : forall n c, frames Rt (continue n c).
Proof. intros. apply (g_continue Rt Rt_po); auto using t_remove, t_push; repeat split. Qed.

Lemma comps_dropped : forall s, comps (dropped s) = comps s.
Proof. intros. unfold dropped. destruct (c_skip _); auto. destruct (pend s); auto. Qed.
Lemma comps_shuffle : forall s, comps (shuffle s) = comps s.
Proof. intros. unfold shuffle. destruct (nonnil _); auto. Qed.
Lemma now_sd : forall s, now (shuffle (dropped s)) = now s.
Proof. intros. unfold shuffle, dropped. destruct (c_skip _), (pend s); cbn; destruct (nonnil _); auto. Qed.
Lemma evl_sd : forall s, evl (shuffle (dropped s)) = evl s.
Proof. intros. unfold shuffle, dropped. destruct (c_skip _), (pend s); cbn; destruct (nonnil _); auto. Qed.
Lemma seq_sd : forall s, seq (shuffle (dropped s)) = seq s.
Proof. intros. unfold shuffle, dropped. destruct (c_skip _), (pend s); cbn; destruct (nonnil _); auto. Qed.
Lemma comps_sd : forall s, comps (shuffle (dropped s)) = comps s.
Proof. intros. rewrite comps_shuffle. apply comps_dropped. Qed.

(** what a step does to clock and current component *)
Definition standby_turn (s : env) (c : nat) : Prop :=
  c_skip (comps s (cur s)) = false /\ hd_error (pend s) = Some c /\ c_status (comps s c) = Standby.
Lemma ev_pop_min : forall l e l', ev_pop l = Some (e, l') ->
  In e l /\ incl l' l /\ forall x, In x l -> ev_le e x.
Proof.
  intros l e l' H. destruct l as [|x t]; unfold ev_pop in H; [discriminate|].
  assert (E1 : e = ev_min x t) by congruence. assert (E2 : l' = ev_del_seq (e_seq (ev_min x t)) (x :: t)) by congruence.
  rewrite E1, E2. destruct (ev_min_spec t x) as (A & B & C).
  split; [destruct A; [left; congruence | right; auto]|]. split.
  - intros y I. unfold ev_del_seq in I. apply filter_In in I. tauto.
  - intros y [<-|I]; auto.
Qed.
Lemma w_step_cur : forall n s,
  wp (step n)
    (fun _ s' => (standby_turn s (cur s') /\ now s' = now s) \/
       ((forall c, ~ standby_turn s c) /\
        ((evl s = [] /\ cur s' = main /\ now s' = now s) \/
         exists e, In e (evl s) /\ e_c e = cur s' /\ now s' = e_t e /\ forall x, In x (evl s) -> ev_le e x)))
    (fun _ s' => (standby_turn s (cur s') /\ now s' = now s) \/
       ((forall c, ~ standby_turn s c) /\
         exists e, In e (evl s) /\ e_c e = cur s' /\ now s' = e_t e /\ forall x, In x (evl s) -> ev_le e x)) s.
Proof.
  intros n s. apply w_step.
  - intros c t SK PD ST.
    assert (T : standby_turn s c) by (unfold standby_turn; rewrite PD; auto).
    split; [intros _; left; auto|]. intros _.
    eapply wp_conseq; [apply (frames_wp _ Rt _ _ (t_continue n c)) | |]; cbv beta; unfold Rt; cbn;
      intros ? s' (A & B & _); left; rewrite A, B; auto.
  - intros D.
    assert (T : forall c, ~ standby_turn s c).
    { intros c (T1 & T2 & T3). destruct D as [D|[D|(c' & t & D & D')]].
      - congruence.
      - rewrite D in T2. discriminate.
      - rewrite D in T2. injection T2 as ->. congruence. }
    split.
    + intros e l' EP. apply ev_pop_min in EP. destruct EP as (I & _ & M). cbv zeta.
      split.
      * intros _. right. split; auto. right. exists e. repeat split; auto.
      * intros _. apply wp_bind.
        eapply wp_conseq; [apply (frames_wp _ Rt _ _ (t_check_fail (e_c e))) | |]; cbv beta; unfold Rt; cbn.
        -- intros ? s' (A & B & _).
           eapply wp_conseq; [apply (frames_wp _ Rt _ _ (t_continue n (e_c e))) | |]; cbv beta; unfold Rt; cbn.
           ++ intros _ s2 (A2 & B2 & _). right. split; auto. right. exists e. rewrite A2, A, B2, B. repeat split; auto.
           ++ intros _ s2 (A2 & B2 & _). right. split; auto. exists e. rewrite A2, A, B2, B. repeat split; auto.
        -- intros ? s' (A & B & _). right. split; auto. exists e. rewrite A, B. auto.
    + intros E. right. split; auto. left. split; auto. cbn. unfold emptied.
      destruct (eoe (shuffle (dropped s))); cbn; rewrite now_sd; auto.
Qed.

(** ** The clock, without any assumption about the calls *)
(** any sequence of calls and steps at all, also those that raise *)
Inductive calls : env -> env -> Prop :=
| calls_refl : forall s, calls s s
| calls_step : forall s s1 n o r s2, calls s s1 -> exec n o s1 = (s2, r) -> calls s s2.
Lemma runs_calls : forall P s s', runs P s s' -> calls s s'.
Proof. intros P s s' R. induction R; [constructor|]. destruct H0 as (_ & n & r & E & _). econstructor; eauto. Qed.

Definition Fut (s : env) : Prop := forall e, In e (evl s) -> now s <= e_t e.
Definition Rf (s s' : env) : Prop := now s' = now s /\ (Fut s -> Fut s').
Lemma Rf_po : preorder Rf.
Proof. constructor; unfold Rf; [auto|]. intros a b c (A & A') (B & B'). split; [congruence | auto]. Qed.
Lemma Rf_same : forall s s', now s' = now s -> evl s' = evl s -> Rf s s'.
Proof. unfold Rf, Fut. intros s s' -> ->. auto. Qed.
Lemma f_remove : forall c, frames Rf (remove c).
Proof.
  intros c s. unfold remove, bind, get, put, setc, stat, when, ret.
  destruct (c_onev (comps s c)); cbn.
  - destruct (ev_del c (evl s)) as [l'|] eqn:E; cbn; [|apply Rf_po].
    apply ev_del_some in E. destruct E as (l1 & e & l2 & E & _ & ->).
    split; cbn; auto. intros H x I. apply H. rewrite E. cbn in I. rewrite in_app_iff in *. cbn. tauto.
  - destruct (steqb _ _); apply Rf_same; reflexivity.
Qed.
Lemma f_resched : forall c t p u cap, frames Rf (reschedule c t p u cap).
Proof.
  intros c t p u cap s. apply wp_fst. unfold reschedule.
  assert (K : forall t', xle (Fin (now s)) t' ->
     wp (setc c (w_sched t') ;;; push c t' p u) (fun _ s' => Rf s s') (fun _ s' => Rf s s') s).
  { intros t' L. apply wp_bind, wp_setc. unfold push. destruct t' as [t'|]; [|apply wp_ret; apply Rf_same; reflexivity].
    wgo. split; cbn; auto. intros H e I. cbn in I. apply in_app_iff in I. cbn. destruct I as [I|[<-|[]]]; auto. }
  apply wp_bind, wp_get. destruct (xltb t (Fin (now s))) eqn:E.
  - apply wp_bind. wgo; auto; [|apply Rf_po]. apply K. apply xle_refl.
  - apply wp_bind, wp_ret. apply K. apply xltb_false_iff. auto.
Qed.
Lemma f_exec : forall n o, o <> OStep -> frames Rf (exec n o).
Proof. intros. apply (g_exec Rf Rf_po); auto using f_remove, f_resched; intros; apply Rf_same; reflexivity. Qed.
Lemma f_check_fail : forall c, frames Rf (check_fail c).
Proof. intros. apply (g_check_fail Rf Rf_po); intros; apply Rf_same; reflexivity. Qed.
Lemma f_continue : forall n c, frames Rf (continue n c).
Proof. intros. apply (g_continue Rf Rf_po); auto using f_remove, f_resched; intros; apply Rf_same; reflexivity. Qed.
Lemma f_step : forall n s, Fut s ->
  wp (step n) (fun _ s' => now s <= now s' /\ Fut s') (fun _ s' => now s <= now s' /\ Fut s') s.
Proof.
  intros n s H.
  assert (G : forall A (m : M A) s1, frames Rf m -> now s <= now s1 /\ Fut s1 ->
     wp m (fun _ s' => now s <= now s' /\ Fut s') (fun _ s' => now s <= now s' /\ Fut s') s1).
  { intros A m s1 F (R1 & R2). eapply wp_conseq; [apply (frames_wp _ Rf m s1 F) | |]; cbv beta; unfold Rf;
      intros ? s2 (E & K); rewrite E; auto. }
  assert (T : forall s', now s' = now s -> evl s' = evl s -> now s <= now s' /\ Fut s').
  { intros s' E1 E2. unfold Fut. rewrite E1, E2. split; [lra | auto]. }
  apply w_step.
  - intros c t SK PD ST. split; intros _; [apply T; reflexivity|]. apply G; auto using f_continue.
  - intros _. split.
    + intros e l' EP. apply ev_pop_min in EP. destruct EP as (I & J & M). cbv zeta.
      assert (R1 : now s <= e_t e /\ Fut (disp (e_c e) (taken e l' (shuffle (dropped s))))).
      { split; [apply H; auto|]. intros x K. cbn in K |- *. destruct (M x (J x K)) as [L|(L & _)]; lra. }
      split; intros _; [exact R1|]. apply wp_bind.
      eapply wp_conseq; [apply G; [apply f_check_fail | exact R1] | |]; cbv beta; auto.
      intros _ s2 R2. apply G; auto using f_continue.
    + intros E. apply T; cbn; unfold emptied; destruct (eoe _); cbn; auto using now_sd, evl_sd.
Qed.
Lemma f_any : forall n o s s' r, Fut s -> exec n o s = (s', r) -> now s <= now s' /\ Fut s'.
Proof.
  intros n o s s' r H E.
  assert (D : o = OStep \/ o <> OStep) by (destruct o; (left; reflexivity) || (right; discriminate)).
  destruct D as [->|D].
  - cbn [exec] in E. pose proof (f_step n s H) as W. unfold wp in W. rewrite E in W. destruct r; auto.
  - pose proof (f_exec n o D s) as F. rewrite E in F. destruct F as (F & F'). cbn in F, F'. rewrite F. split; [lra | auto].
Qed.
Lemma f_calls : forall s s', calls s s' -> Fut s -> now s <= now s' /\ Fut s'.
Proof.
  intros s s' R H. induction R; [split; [lra | auto]|]. destruct (IHR H) as (A & B).
  destruct (f_any _ _ _ _ _ B H0) as (A' & B'). split; auto. lra.
Qed.
Lemma Fut_init : forall t0 R sv kc hp y d, Fut (init t0 R sv kc hp y d).
Proof. intros. intros e []. Qed.
(** now() as the user sees it: only reset_now changes the offset *)
Definition Roffs (s s' : env) : Prop := off s' = off s.
Lemma Roffs_po : preorder Roffs. Proof. constructor; unfold Roffs; congruence. Qed.
Lemma off_exec : forall n o, (forall x, o <> OResetNow x) -> frames Roffs (exec n o).
Proof.
  intros n o H. 
  assert (A1 : forall c, frames Roffs (remove c)) by (intros; unfold remove; fgo Roffs_po; reflexivity).
  assert (A2 : forall c t p u cap, frames Roffs (reschedule c t p u cap)) by (intros; unfold reschedule, push; fgo Roffs_po; reflexivity).
  assert (D : o = OStep \/ o <> OStep) by (destruct o; (left; reflexivity) || (right; discriminate)).
  destruct D as [->|D].
  - cbn [exec]. unfold step, step_event.
    assert (A3 : forall c, frames Roffs (continue n c)) by (intros; apply (g_continue Roffs Roffs_po); auto; reflexivity).
    assert (A4 : forall c, frames Roffs (check_fail c)) by (intros; apply (g_check_fail Roffs Roffs_po); auto; reflexivity).
    fgo Roffs_po; auto; reflexivity.
  - apply (g_exec_nr Roffs Roffs_po); auto; reflexivity.
Qed.

Lemma now_exec : forall n o s s' r, EI s -> exec n o s = (s', r) -> now s <= now s'.
Proof.
  intros n o s s' r H E.
  assert (D : o = OStep \/ o <> OStep) by (destruct o; (left; reflexivity) || (right; discriminate)).
  destruct D as [->|D].
  - cbn [exec] in E. pose proof (w_step_cur n s) as W. unfold wp in W. rewrite E in W.
    assert (K : forall e, In e (evl s) -> now s <= e_t e) by apply (ei_now _ H).
    destruct r as [a|x]; destruct W as [(_ & ->)|(_ & W)]; try lra.
    + destruct W as [(_ & _ & ->)|(e & I & _ & -> & _)]; [lra | auto].
    + destruct W as (e & I & _ & -> & _). auto.
  - pose proof (t_exec n o D s) as F. rewrite E in F. destruct F as (F & _). cbn in F. rewrite F. lra.
Qed.

(** ** Sequence numbers: [evl] lists the pending events in the order in which they were pushed,
    and the absolute sequence numbers increase along it; again for any sequence of calls *)
Inductive incr : Z -> list ev -> Z -> Prop :=
| incr_nil : forall a b, (a <= b)%Z -> incr a [] b
| incr_cons : forall a e l b, (a < Z.abs (e_seq e))%Z -> incr (Z.abs (e_seq e)) l b -> incr a (e :: l) b.
Lemma incr_le : forall l a b, incr a l b -> (a <= b)%Z.
Proof. induction 1; lia. Qed.
Lemma incr_weak : forall l a b a' b', incr a l b -> (a' <= a)%Z -> (b <= b')%Z -> incr a' l b'.
Proof. intros l a b a' b' H. revert a' b'. induction H; intros; constructor; try lia. apply IHincr; lia. Qed.
Lemma incr_snoc : forall l a b e, incr a l b -> (b < Z.abs (e_seq e))%Z -> incr a (l ++ [e]) (Z.abs (e_seq e)).
Proof.
  induction 1; intros; cbn; constructor; auto; try lia. constructor. lia.
Qed.
Lemma incr_del : forall l1 e l2 a b, incr a (l1 ++ e :: l2) b -> incr a (l1 ++ l2) b.
Proof.
  induction l1 as [|x t IH]; cbn; intros e l2 a b H.
  - inversion H; subst. eapply incr_weak; [eassumption | lia | lia].
  - inversion H; subst. constructor; auto. eapply IH; eauto.
Qed.
Lemma incr_in : forall l a b e, incr a l b -> In e l -> (a < Z.abs (e_seq e) <= b)%Z.
Proof.
  induction 1; intros I; [destruct I|]. destruct I as [<-|I].
  - split; auto. eapply incr_le; eauto.
  - specialize (IHincr I). lia.
Qed.
Lemma incr_nodup : forall l a b, incr a l b -> NoDup (map (fun e => Z.abs (e_seq e)) l).
Proof.
  induction 1; cbn; constructor; auto. intros I. apply in_map_iff in I. destruct I as (x & E & I).
  pose proof (incr_in _ _ _ _ H0 I). lia.
Qed.
Lemma incr_order : forall l1 x l2 y l3 a b, incr a (l1 ++ x :: l2 ++ y :: l3) b -> (Z.abs (e_seq x) < Z.abs (e_seq y))%Z.
Proof.
  induction l1; cbn; intros x l2 y l3 a0 b H; inversion H; subst.
  - eapply incr_in in H5; [|apply in_app_iff; right; left; reflexivity]. lia.
  - eapply IHl1; eauto.
Qed.

Definition Seqs (s : env) : Prop := incr 0 (evl s) (seq s).
(** [after s s']: the old events that are left come first, in the same order; new ones have a
    larger number *)
Definition Rs (s s' : env) : Prop :=
  (Seqs s -> Seqs s' /\ (seq s <= seq s')%Z /\
   forall e, In e (evl s') -> In e (evl s) \/ (seq s < Z.abs (e_seq e))%Z).
Lemma Rs_po : preorder Rs.
Proof.
  constructor; unfold Rs.
  - intros. split; [auto|]. split; [lia | auto].
  - intros a b c A B H. destruct (A H) as (A1 & A2 & A3). destruct (B A1) as (B1 & B2 & B3).
    split; auto. split; [lia|]. intros e I.
    destruct (B3 e I) as [J|J]; [apply A3; auto | right; lia].
Qed.
Lemma Rs_same : forall s s', seq s' = seq s -> evl s' = evl s -> Rs s s'.
Proof. unfold Rs, Seqs. intros s s' -> ->. split; [auto|]. split; [lia | auto]. Qed.
Lemma s_remove : forall c, frames Rs (remove c).
Proof.
  intros c s. unfold remove, bind, get, put, setc, stat, when, ret.
  destruct (c_onev (comps s c)); cbn.
  - destruct (ev_del c (evl s)) as [l'|] eqn:E; cbn; [|apply Rs_po].
    apply ev_del_some in E. destruct E as (l1 & e & l2 & E & _ & ->).
    unfold Rs, Seqs. cbn. rewrite E. intros H. split; [eapply incr_del; eauto|]. split; [lia|].
    intros x I. left. rewrite in_app_iff in *. cbn. tauto.
  - destruct (steqb _ _); apply Rs_same; reflexivity.
Qed.
Lemma s_push : forall c t p u, frames Rs (push c t p u).
Proof.
  intros c t p u s. unfold push. destruct t as [t|]; cbn; [|apply Rs_po].
  unfold Rs, Seqs. cbn. intros H. pose proof (incr_le _ _ _ H).
  assert (A : Z.abs (if u then - (seq s + 1) else seq s + 1) = (seq s + 1)%Z) by (destruct u; lia).
  split; [|split; [lia|]].
  - pose proof (incr_snoc _ _ _ (mkEv t p (if u then (- (seq s + 1))%Z else (seq s + 1)%Z) c) H) as K. cbn in K.
    rewrite A in K. apply K. lia.
  - intros e I. apply in_app_iff in I. destruct I as [I|[<-|[]]]; auto. right. cbn. lia.
Qed.
Lemma s_resched : forall c t p u cap, frames Rs (reschedule c t p u cap).
Proof. intros. unfold reschedule. fgo Rs_po; auto using s_push. apply Rs_same; reflexivity. Qed.
Lemma s_exec : forall n o, o <> OStep -> frames Rs (exec n o).
Proof. intros. apply (g_exec Rs Rs_po); auto using s_remove, s_resched; intros; apply Rs_same; reflexivity. Qed.
Lemma s_check_fail : forall c, frames Rs (check_fail c).
Proof. intros. apply (g_check_fail Rs Rs_po); auto using s_remove, s_resched; intros; apply Rs_same; reflexivity. Qed.
Lemma s_continue : forall n c, frames Rs (continue n c).
Proof. intros. apply (g_continue Rs Rs_po); auto using s_remove, s_resched; intros; apply Rs_same; reflexivity. Qed.
Lemma s_step : forall n s, wp (step n) (fun _ s' => Rs s s') (fun _ s' => Rs s s') s.
Proof.
  intros n s.
  assert (G : forall A (m : M A) s1, frames Rs m -> Rs s s1 -> wp m (fun _ s' => Rs s s') (fun _ s' => Rs s s') s1).
  { intros A m s1 F R. eapply wp_conseq; [apply (frames_wp _ Rs m s1 F) | |]; cbv beta; intros; eapply po_trans; eauto; apply Rs_po. }
  apply w_step.
  - intros c t SK PD ST. split; intros _; [apply Rs_same; reflexivity|]. apply G; auto using s_continue. apply Rs_same; reflexivity.
  - intros _. split.
    + intros e l' EP. cbv zeta.
      assert (R1 : Rs s (disp (e_c e) (taken e l' (shuffle (dropped s))))).
      { intros HS. pose proof (incr_nodup _ _ _ HS) as ND. apply NoDup_abs_seq in ND.
        apply ev_pop_spec in EP; auto. destruct EP as (l1 & l2 & E & -> & M).
        unfold Seqs in *. cbn. rewrite seq_sd. rewrite E in HS. split; [eapply incr_del; eauto|]. split; [lia|].
        intros x I. left. rewrite E, in_app_iff in *. cbn. tauto. }
      split; intros _; [exact R1|]. apply wp_bind. eapply wp_conseq; [apply G; [apply s_check_fail | exact R1] | |]; cbv beta; auto.
      intros _ s2 R2. apply G; auto using s_continue.
    + intros E. apply Rs_same; cbn; unfold emptied; destruct (eoe _); cbn; auto using seq_sd, evl_sd.
Qed.
Lemma s_any : forall n o, frames Rs (exec n o).
Proof.
  intros n o.
  assert (D : o = OStep \/ o <> OStep) by (destruct o; (left; reflexivity) || (right; discriminate)).
  destruct D as [->|D]; [|apply s_exec; auto].
  intros s. apply wp_fst. cbn [exec]. apply s_step.
Qed.
Lemma s_calls : forall s s', calls s s' -> Rs s s'.
Proof.
  intros s s' R. induction R; [apply Rs_po|]. eapply po_trans; [apply Rs_po | exact IHR|].
  pose proof (s_any n o s1) as K. rewrite H in K. exact K.
Qed.
Lemma Seqs_init : forall t0 R sv kc hp y d, Seqs (init t0 R sv kc hp y d).
Proof. intros. constructor. cbn. lia. Qed.

(** ** The dispatched event is consumed *)
Lemma w_step_pop : forall n s, Seqs s ->
  wp (step n)
    (fun _ s' => (standby_turn s (cur s') /\ now s' = now s) \/
       ((forall c, ~ standby_turn s c) /\
        ((evl s = [] /\ cur s' = main /\ now s' = now s) \/
         exists e, In e (evl s) /\ ~ In e (evl s') /\ e_c e = cur s' /\ now s' = e_t e /\ forall x, In x (evl s) -> ev_le e x)))
    (fun _ s' => (standby_turn s (cur s') /\ now s' = now s) \/
       ((forall c, ~ standby_turn s c) /\
         exists e, In e (evl s) /\ ~ In e (evl s') /\ e_c e = cur s' /\ now s' = e_t e /\ forall x, In x (evl s) -> ev_le e x)) s.
Proof.
  intros n s HS. apply w_step.
  - intros c t SK PD ST.
    assert (T : standby_turn s c) by (unfold standby_turn; rewrite PD; auto).
    split; [intros _; left; auto|]. intros _.
    eapply wp_conseq; [apply (frames_wp _ Rt _ _ (t_continue n c)) | |]; cbv beta; unfold Rt; cbn;
      intros ? s' (A & B & _); left; rewrite A, B; auto.
  - intros D.
    assert (T : forall c, ~ standby_turn s c).
    { intros c (T1 & T2 & T3). destruct D as [D|[D|(c' & t & D & D')]].
      - congruence.
      - rewrite D in T2. discriminate.
      - rewrite D in T2. injection T2 as ->. congruence. }
    split.
    + intros e l' EP. pose proof EP as EP0. apply ev_pop_min in EP0. destruct EP0 as (I & _ & M). cbv zeta.
      pose proof (incr_nodup _ _ _ HS) as ND. pose proof (NoDup_abs_seq _ ND) as ND'.
      apply ev_pop_spec in EP; auto. destruct EP as (l1 & l2 & E & -> & _).
      set (s1 := disp (e_c e) (taken e (l1 ++ l2) (shuffle (dropped s)))).
      assert (N1 : ~ In e (evl s1)).
      { cbn. intros J. rewrite E, map_app in ND. cbn in ND. apply NoDup_remove_2 in ND. apply ND.
        rewrite <- map_app. apply (in_map (fun e => Z.abs (e_seq e))). exact J. }
      assert (S1 : Seqs s1). { unfold Seqs in *. cbn. rewrite seq_sd. rewrite E in HS. eapply incr_del; eauto. }
      assert (B1 : (Z.abs (e_seq e) <= seq s1)%Z). { cbn. rewrite seq_sd. eapply incr_in in HS; eauto. lia. }
      assert (K : forall s2, Rs s1 s2 -> Rt s1 s2 -> ~ In e (evl s2) /\ e_c e = cur s2 /\ now s2 = e_t e).
      { intros s2 R2 (A & B & _). destruct (R2 S1) as (_ & _ & R3). split; [|rewrite A, B; auto].
        intros J. destruct (R3 e J) as [J'|J']; [auto | lia]. }
      assert (F1 : frames (fun a b => Rs a b /\ Rt a b) (check_fail (e_c e))).
      { intros z. split; [apply s_check_fail | apply t_check_fail]. }
      assert (F2 : frames (fun a b => Rs a b /\ Rt a b) (continue n (e_c e))).
      { intros z. split; [apply s_continue | apply t_continue]. }
      split.
      * intros _. right. split; auto. right. exists e. repeat split; auto.
      * intros _. apply wp_bind.
        eapply wp_conseq; [apply (frames_wp _ _ _ _ F1) | |]; cbv beta.
        -- intros ? s2 (R2 & T2).
           eapply wp_conseq; [apply (frames_wp _ _ _ _ F2) | |]; cbv beta.
           ++ intros _ s3 (R3 & T3). right. split; auto. right. exists e.
              destruct (K s3) as (K1 & K2 & K3); [eapply Rs_po; eauto | eapply Rt_po; eauto | auto].
           ++ intros _ s3 (R3 & T3). right. split; auto. exists e.
              destruct (K s3) as (K1 & K2 & K3); [eapply Rs_po; eauto | eapply Rt_po; eauto | auto].
        -- intros ? s2 (R2 & T2). right. split; auto. exists e. destruct (K s2) as (K1 & K2 & K3); auto.
    + intros E. right. split; auto. left. split; auto. cbn. unfold emptied.
      destruct (eoe (shuffle (dropped s))); cbn; rewrite now_sd; auto.
Qed.
