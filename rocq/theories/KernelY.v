(** Waiting for states: what Component._trywait and State._trywait do, exactly. *)
From Coq Require Import QArith Lqa List Bool Arith ZArith Lia.
From Verif Require Import Base Kernel Wp KernelE KernelL KernelX KernelT KernelU KernelR KernelQ KernelP KernelA KernelB KernelC.
Import ListNotations.
Open Scope Q_scope.
Local Arguments keys : simpl never.

Lemma forallb_filter_id : forall A (f : A -> bool) l, forallb f l = true -> filter f l = l.
Proof. induction l as [|a t IH]; cbn; auto. intros H. apply andb_prop in H. destruct H as (-> & H). f_equal. auto. Qed.
Definition notof (c : nat) (e : ev) : bool := negb (Nat.eqb (e_c e) c).
Lemma ev_del_filter : forall c l l', NoDup (map e_c l) -> ev_del c l = Some l' -> l' = filter (notof c) l.
Proof.
  unfold notof. induction l as [|e t IH]; intros l' N H; cbn in *; [discriminate|]. inversion N as [|? ? N1 N2]; subst.
  destruct (Nat.eqb_spec (e_c e) c) as [E|E]; cbn.
  - injection H as <-. symmetry. apply forallb_filter_id. apply forallb_forall. intros x I. destruct (Nat.eqb_spec (e_c x) c) as [E1|]; auto.
    destruct N1. rewrite E, <- E1. apply in_map; auto.
  - destruct (ev_del c t) as [t'|]; [|discriminate]. injection H as <-. f_equal. auto.
Qed.
Lemma notof_id : forall c l, ~ In c (map e_c l) -> filter (notof c) l = l.
Proof.
  intros c l H. apply forallb_filter_id, forallb_forall. intros x I. unfold notof. destruct (Nat.eqb_spec (e_c x) c) as [E|]; auto. destruct H. rewrite <- E. apply in_map; auto.
Qed.
Lemma adel_id : forall B c (l : list (nat * B)), ~ In c (map fst l) -> adel c l = l.
Proof.
  intros B c l H. unfold adel. apply forallb_filter_id, forallb_forall. intros x I. destruct (Nat.eqb_spec c (fst x)) as [E|]; auto. destruct H. rewrite E. apply in_map; auto.
Qed.
Lemma adel_twice : forall B c (l : list (nat * B)), adel c (adel c l) = adel c l.
Proof. intros. apply adel_id. intros H. apply in_map_iff in H. destruct H as ((d, p) & E & I). cbn in E. subst d. apply filter_In in I. cbn in I. rewrite Nat.eqb_refl in I. destruct I; discriminate. Qed.

(** the waiters queues in the list ts have lost their member c *)
Definition outof (c : nat) (ts : list nat) (f : qref -> list (nat * xq)) (q : qref) : list (nat * xq) :=
  match q with QWait t => if memb t ts then adel c (f q) else f q | _ => f q end.
(** everything except the queues and the event *)
Record woken (s : env) (c : nat) (s' : env) : Prop := {
  wk_sval : sval s' = sval s;
  wk_now : now s' = now s;
  wk_rsc : rsc s' = rsc s;
  wk_cur : cur s' = cur s;
  wk_end : ended s' = ended s;
  wk_self : comps s' c = w_onev true (w_sched (Fin (now s)) (w_status Scheduled (w_waits [] (comps s c))));
  wk_oth : forall d, d <> c -> comps s' d = comps s d;
  wk_q : forall q, qs s' q = outof c (map fst (c_waits (comps s c))) (qs s) q;
  wk_seq : seq s' = (seq s + 1)%Z;
  wk_evl : evl s' = filter (notof c) (evl s) ++ [mkEv (now s) (Fin 0) (seq s + 1) c] }.
(** may [c] go on with these values *)
Definition can (s : env) (c : nat) : bool := negb (steqb (c_status (comps s c)) Interrupted) && wait_ok s (comps s c).

Definition only_qs (s s' : env) : Prop := s' = s_qs (qs s') s.
Lemma w_leave_waits_exact : forall c ts s,
  wp (mfor ts (leave_wait c)) (fun _ s' => only_qs s s' /\ forall q, qs s' q = outof c ts (qs s) q) (fun _ _ => False) s.
Proof.
  intros c. induction ts as [|t ts IH]; intros s; cbn [mfor].
  - apply wp_ret. split; [unfold only_qs; destruct s; reflexivity|]. intros []; reflexivity.
  - apply wp_bind.
    assert (W : wp (leave_wait c t) (fun _ s' => only_qs s s' /\ forall q, qs s' q = outof c [t] (qs s) q) (fun _ _ => False) s).
    { unfold leave_wait. apply wp_bind, wp_get, wp_when; intros I.
      - unfold q_leave. apply wp_bind, wp_get. rewrite I. apply wp_put. split; [unfold only_qs; destruct s; reflexivity|]. intros q.
        rewrite qs_m_q. destruct (qeqb q (QWait t)) eqn:E.
        + apply qeqb_iff in E. subst q. cbn. rewrite Nat.eqb_refl. reflexivity.
        + unfold outof. destruct q as [| |t'| | | ]; auto. cbn in *. rewrite E. reflexivity.
      - split; [unfold only_qs; destruct s; reflexivity|]. intros q. unfold outof. destruct q as [| |t'| | | ]; auto. cbn [memb existsb]. destruct (Nat.eqb_spec t' t) as [->|]; auto.
        cbn. rewrite adel_id; auto. apply inq_false. auto. }
    eapply wp_conseq; [exact W | cbv beta | auto]. intros _ s1 (A1 & B1). eapply wp_conseq; [apply IH | cbv beta | auto]. intros _ s2 (A2 & B2). split.
    + unfold only_qs in *. rewrite A2, A1. destruct s; reflexivity.
    + intros q. rewrite B2. destruct q as [| |t'| | | ]; cbn [outof]; rewrite ?B1; cbn [outof]; auto. cbn [memb existsb].
      unfold memb. cbn [existsb]. destruct (Nat.eqb t' t); cbn [orb]; destruct (existsb (Nat.eqb t') ts); auto using adel_twice.
Qed.
Lemma c_trywait_no : forall s c, can s c = false -> c_trywait c s = (s, Ok false).
Proof.
  intros s c H. unfold can in H. unfold c_trywait, stat, bind, get, ret. cbn. destruct (steqb (c_status (comps s c)) Interrupted); auto. cbn in H. rewrite H. auto.
Qed.
Lemma c_trywait_yes : forall s c, EI s -> can s c = true -> exists s', c_trywait c s = (s', Ok true) /\ woken s c s'.
Proof.
  intros s c EE H. apply andb_prop in H. destruct H as (H1 & H2).
  assert (W : wp (c_trywait c) (fun b s' => b = true /\ woken s c s') (fun _ _ => False) s).
  { unfold c_trywait. apply wp_bind, wp_stat. apply negb_true_iff in H1. rewrite H1. apply wp_bind, wp_get. rewrite H2. apply wp_bind, wp_get, wp_bind.
    eapply wp_conseq; [apply w_leave_waits_exact | cbv beta | auto]. intros _ s1 (A1 & B1). apply wp_bind, wp_setc.
    assert (C1 : comps s1 = comps s) by (rewrite A1; reflexivity). assert (V1 : evl s1 = evl s) by (rewrite A1; reflexivity).
    assert (Z1 : seq s1 = seq s) by (rewrite A1; reflexivity). assert (N1 : now s1 = now s) by (rewrite A1; reflexivity).
    assert (S1 : sval s1 = sval s) by (rewrite A1; reflexivity). assert (R1 : rsc s1 = rsc s) by (rewrite A1; reflexivity).
    assert (K1 : cur s1 = cur s) by (rewrite A1; reflexivity). assert (D1 : ended s1 = ended s) by (rewrite A1; reflexivity).
    apply wp_bind.
    assert (W2 : wp (remove c) (fun _ s2 => evl s2 = filter (notof c) (evl s) /\ seq s2 = seq s /\ now s2 = now s /\ sval s2 = sval s /\ rsc s2 = rsc s /\ cur s2 = cur s /\ ended s2 = ended s
        /\ (exists b, comps s2 c = w_onev b (w_waits [] (comps s c))) /\ (forall d, d <> c -> comps s2 d = comps s d) /\ qs s2 = qs s1) (fun _ _ => False) (m_comp c (w_waits []) s1)).
    { unfold remove. apply wp_bind, wp_get. rewrite comps_same, C1. cbn [c_onev w_waits]. apply wp_if; intros B.
      - apply wp_bind, wp_get. change (evl (m_comp c (w_waits []) s1)) with (evl s1). rewrite V1. destruct (ev_del c (evl s)) as [l'|] eqn:DL.
        + apply wp_bind, wp_put, wp_setc. apply ev_del_filter in DL; [|apply EE]. subst l'. cbn [evl s_evl seq now sval rsc cur ended qs m_comp s_comps]. repeat split; auto.
          * exists false. change (comps (m_comp c (w_onev false) (s_evl (filter (notof c) (evl s)) (m_comp c (w_waits []) s1))) c = w_onev false (w_waits [] (comps s c))). rewrite comps_same. cbn [comps s_evl]. rewrite comps_same, C1. reflexivity.
          * intros d N. change (comps (m_comp c (w_onev false) (s_evl (filter (notof c) (evl s)) (m_comp c (w_waits []) s1))) d = comps s d). rewrite comps_diff by auto. cbn [comps s_evl]. rewrite comps_diff, C1; auto.
        + apply ev_del_none in DL. destruct DL. apply (ei_onev _ EE); auto.
      - assert (NF : filter (notof c) (evl s) = evl s) by (apply notof_id; rewrite <- (ei_onev _ EE); congruence). rewrite NF.
        apply wp_bind, wp_stat. rewrite comps_same, C1. cbn [c_status w_waits].
        assert (FB : comps s c = w_onev false (comps s c)) by (rewrite <- B; destruct (comps s c); reflexivity).
        assert (SB : exists b, comps (m_comp c (w_waits []) s1) c = w_onev b (w_waits [] (comps s c))).
        { exists false. rewrite comps_same, C1. rewrite FB at 1. reflexivity. }
        assert (SO : forall d, d <> c -> comps (m_comp c (w_waits []) s1) d = comps s d) by (intros d N; rewrite comps_diff, C1; auto).
        apply wp_when; intros _; [apply wp_bind, wp_put, wp_put|]; cbn [evl seq now sval rsc cur ended qs comps s_stby s_pend m_comp s_comps] in *; repeat split; auto. }
    eapply wp_conseq; [exact W2 | cbv beta | auto]. intros _ s2 (E2 & Z2 & N2 & S2 & R2 & K2 & D2 & (b & C2) & O2 & Q2).
    apply wp_bind, wp_setc, wp_bind, wp_get, wp_bind. unfold reschedule. apply wp_bind, wp_get.
    change (now (m_comp c (w_status Scheduled) s2)) with (now s2).
    assert (NP : xltb (Fin (now s2)) (Fin (now s2)) = false). { cbn. apply Qltb_false_iff. lra. }
    rewrite NP. apply wp_bind, wp_ret, wp_bind, wp_setc. unfold push. apply wp_bind, wp_put, wp_bind, wp_get, wp_bind, wp_setc, wp_put, wp_ret. split; auto.
    constructor; cbn [sval now rsc cur ended qs evl seq s_evl s_seq m_comp s_comps]; try congruence.
    - cbn [comps s_evl]. rewrite comps_same. cbn [comps s_seq]. rewrite !comps_same. rewrite C2, N2. destruct (comps s c); reflexivity.
    - intros d N. cbn [comps s_evl]. rewrite comps_diff by auto. cbn [comps s_seq]. rewrite !comps_diff by auto. auto.
    - intros q. rewrite Q2, B1. reflexivity. }
  unfold wp in W. destruct (c_trywait c s) as [s' [b|e]]; [|destruct W]. destruct W as (-> & W). eauto.
Qed.

Inductive wakes : env -> list nat -> env -> Prop :=
| wks_nil : forall s, wakes s [] s
| wks_cons : forall s c s1 hs s2, woken s c s1 -> wakes s1 hs s2 -> wakes s (c :: hs) s2.
(** at most n of them, [None]: all of them; a number that is not positive is no limit (23803-23805) *)
Definition pick (mx : option Z) (l : list nat) : list nat :=
  match mx with None => l | Some m => if (m <=? 0)%Z then l else firstn (Z.to_nat m) l end.
Lemma can_woken : forall s c s' d, woken s c s' -> d <> c -> can s' d = can s d.
Proof. intros s c s' d W N. unfold can, wait_ok. rewrite (wk_oth _ _ _ W), (wk_sval _ _ _ W) by auto. reflexivity. Qed.
Lemma s_trywait_exact : forall l mx s, NoDup l -> EI s -> exists s', s_trywait l mx s = (s', Ok tt) /\ wakes s (pick mx (filter (can s) l)) s'.
Proof.
  induction l as [|c t IH]; intros mx s N E; cbn [s_trywait filter].
  { exists s. split; auto. destruct mx as [m|]; cbn; [|constructor]. destruct (m <=? 0)%Z; [constructor|]. rewrite firstn_nil. constructor. }
  inversion N as [|? ? N1 N2]; subst. unfold bind at 1. destruct (can s c) eqn:C.
  - destruct (c_trywait_yes _ _ E C) as (s1 & T & W). rewrite T. pose proof (re_c_trywait c s E) as E1. rewrite T in E1. cbn [fst] in E1.
    assert (F : filter (can s1) t = filter (can s) t).
    { apply filter_ext_in. intros d I. apply (can_woken _ _ _ _ W). intros ->. auto. }
    destruct mx as [m|]; cbn [pick].
    + destruct (Z.eqb_spec (m - 1) 0) as [M|M].
      * exists s1. split; auto. assert (m = 1)%Z by lia. subst m. cbn. apply wks_cons with (s1 := s1); auto. constructor.
      * destruct (IH (Some (m - 1)%Z) s1 N2 E1) as (s2 & T2 & K2). exists s2. split; auto. rewrite F in K2. cbn [pick] in K2.
        destruct (Z.leb_spec m 0); destruct (Z.leb_spec (m - 1) 0); try lia; [eapply wks_cons; eauto|].
        replace (Z.to_nat m) with (S (Z.to_nat (m - 1))) by lia. cbn [firstn]. eapply wks_cons; eauto.
    + destruct (IH None s1 N2 E1) as (s2 & T2 & K2). exists s2. split; auto. rewrite F in K2. eapply wks_cons; eauto.
  - rewrite (c_trywait_no _ _ C). cbn. apply IH; auto.
Qed.

(** ** the calls that do not make a component wait for states *)
Definition sameW (y z : comp) : Prop := c_status y = Waiting /\ c_waits z = c_waits y /\ c_wall z = c_wall y /\ c_cond z = c_cond y.
Definition Rw (s s' : env) : Prop := sval s' = sval s /\ forall d, c_status (comps s' d) = Waiting -> c_waits (comps s' d) = [] \/ sameW (comps s d) (comps s' d).
Lemma Rw_po : preorder Rw.
Proof.
  constructor.
  - intros s. split; auto. intros d H. right. repeat split; auto.
  - intros a b c (A1 & A2) (B1 & B2). split; [congruence|]. intros d H. destruct (B2 d H) as [B|(B3 & B4 & B5 & B6)]; auto.
    destruct (A2 d B3) as [A|(A3 & A4 & A5 & A6)]; [left; congruence|]. right. unfold sameW. repeat split; congruence.
Qed.
Lemma Rw_same : forall s s', sval s' = sval s -> comps s' = comps s -> Rw s s'.
Proof. intros s s' A B. split; auto. intros d H. right. unfold sameW. rewrite B in *. auto. Qed.
Lemma Rw_comp : forall c f s, (forall y, c_status (f y) = Waiting -> c_waits (f y) = [] \/ sameW y (f y)) -> Rw s (m_comp c f s).
Proof.
  intros c f s H. split; auto. intros d K. rewrite comps_m_comp in K |- *. destruct (Nat.eqb_spec d c) as [E|E]; [subst; auto|]. right. unfold sameW. auto.
Qed.
Ltac fy := fgo Rw_po; try (apply Rw_comp; intros y Hy; cbn in *; first [discriminate | left; reflexivity | right; unfold sameW; cbn; auto 6]; fail); try (apply Rw_same; reflexivity).

Section Y.
  Let PO := Rw_po.
  Local Notation R := Rw.
  Lemma y_q_leave : forall q c, frames R (q_leave q c). Proof. intros. unfold q_leave. fy. Qed.
  Lemma y_q_enter : forall q c p, frames R (q_enter q c p). Proof. intros. unfold q_enter. fy. Qed.
  Lemma y_remove : forall c, frames R (remove c). Proof. intros. unfold remove. fy. Qed.
  Lemma y_resched : forall c t p u cap, frames R (reschedule c t p u cap). Proof. intros. unfold reschedule, push. fy. Qed.
  Lemma y_leave_req : forall c r, frames R (leave_req c r). Proof. intros. unfold leave_req. fy; auto using y_q_leave. Qed.
  Lemma y_check_fail : forall c, frames R (check_fail c). Proof. intros. unfold check_fail. fy; auto using y_q_leave, y_leave_req. Qed.
  Ltac f := fy; auto using y_q_leave, y_q_enter, y_remove, y_check_fail, y_resched, y_leave_req.
  Lemma y_activate : forall c a d p u pr kr kw cap, frames R (activate c a d p u pr kr kw cap). Proof. intros. unfold activate. f. Qed.
  Lemma y_create : forall c a d p u sk cap, frames R (create c a d p u sk cap). Proof. intros. unfold create. f. Qed.
  Lemma y_hold : forall c sp p u i cap, frames R (hold c sp p u i cap). Proof. intros. unfold hold, check_notdata. f. Qed.
  Lemma y_passivate : forall c, frames R (passivate c). Proof. intros. unfold passivate, check_notdata. f. Qed.
  Lemma y_interrupt : forall c, frames R (interrupt c). Proof. intros. unfold interrupt, check_notdata. f. Qed.
  Lemma y_standby : forall c, frames R (standby c). Proof. intros. unfold standby, check_notdata, check_notmain. f. Qed.
  Lemma y_set_remaining : forall c v p u, frames R (set_remaining c v p u). Proof. intros. unfold set_remaining. f. Qed.
  Lemma y_claim : forall c r q, frames R (claim c r q). Proof. intros. unfold claim, q_prio. f. Qed.
  Lemma y_honor_one : forall c r q, frames R (honor_one c r q). Proof. intros. unfold honor_one, q_prio. f. Qed.
  Lemma y_honor_all_from : forall c rq, frames R (honor_all_from c rq). Proof. induction rq as [|[r q] t IH]; cbn; f; auto using y_honor_one. Qed.
  Lemma y_honor_any_from : forall c rq, frames R (honor_any_from c rq). Proof. induction rq as [|[r q] t IH]; cbn; f; auto using y_honor_one. Qed.
  Lemma y_c_try : forall rt c, (forall r, frames R (rt r)) -> frames R (c_try rt c).
  Proof. intros rt c Hrt. unfold c_try, honor_all, honor_any. f; auto using y_honor_all_from, y_honor_any_from, y_claim. Qed.
  Lemma y_rloop : forall rt r an first p1, (forall r, frames R (rt r)) -> forall n mx, frames R (rloop (c_try rt) n r an first p1 mx).
  Proof. intros rt r an first p1 Hrt. induction n as [|n IH]; intros mx; cbn [rloop]; destruct mx as [[c p]|]; f; auto using y_c_try. Qed.
  Lemma y_r_try : forall n r, frames R (r_try n r).
  Proof. induction n as [|n IH]; intros r; cbn [r_try]; f; auto using y_rloop. Qed.
  Lemma y_release1 : forall n c r q b, frames R (release1 n c r q b). Proof. intros. unfold release1. f; auto using y_r_try. Qed.
  Lemma y_release : forall n c a, frames R (release n c a). Proof. intros. unfold release. f; auto using y_release1. Qed.
  Lemma y_release_claimers : forall z n r mx, frames R (release_claimers z n r mx).
  Proof. induction n; intros r mx; cbn [release_claimers]; destruct mx as [[c p]|]; f; apply y_release. Qed.
  Lemma y_res_release : forall n r q, frames R (res_release n r q). Proof. intros. unfold res_release. f; auto using y_r_try, y_release_claimers. Qed.
  Lemma y_set_cap : forall n r q, frames R (set_cap n r q). Proof. intros. unfold set_cap. f; auto using y_r_try. Qed.
  Lemma y_cancel : forall n c, frames R (cancel n c). Proof. intros. unfold cancel. f; auto using y_release1. Qed.
  Lemma y_terminate : forall n c, frames R (terminate n c). Proof. intros. unfold terminate. f; auto using y_release1. Qed.
  Lemma y_continue : forall n c, frames R (continue n c). Proof. intros. unfold continue. f; auto using y_r_try. Qed.
  Lemma y_step : forall n, frames R (step n). Proof. intros. unfold step, step_event. f; auto using y_continue. Qed.
  Lemma y_give : forall d c, frames R (give d c). Proof. intros. unfold give. f. Qed.
  Lemma y_leave_from : forall d, frames R (leave_from d). Proof. intros. unfold leave_from. f. Qed.
  Lemma y_leave_to : forall d, frames R (leave_to d). Proof. intros. unfold leave_to. f. Qed.
  Lemma y_item : forall n, (forall k c w, frames R (item_enter n k c w)) /\ (forall k c, frames R (item_leave n k c)).
  Proof. induction n as [|n [IH1 IH2]]; split; intros; cbn [item_enter item_leave]; unfold set_kmav; f; auto using y_leave_from, y_leave_to, y_give. Qed.
  Lemma y_item_enter : forall n k c w, frames R (item_enter n k c w). Proof. intros. apply y_item. Qed.
  Lemma y_item_leave : forall n k c, frames R (item_leave n k c). Proof. intros. apply y_item. Qed.
  Lemma y_to_try : forall n c i p ks, frames R (to_try n c i p ks). Proof. induction ks; intros; cbn; f; auto using y_item_enter. Qed.
  Lemma y_rescan_items : forall n k d l, frames R (rescan_items n k d l). Proof. induction l; intros; cbn; f; auto using y_item_leave, y_leave_from, y_give. Qed.
  Lemma y_rescan : forall n k, frames R (rescan n k). Proof. intros n k. unfold rescan. f; auto using y_rescan_items. Qed.
  Lemma y_set_filter : forall n c h, frames R (set_filter n c h). Proof. intros. unfold set_filter. f; auto using y_rescan. Qed.
  Lemma y_rescan_to_loop : forall n k l, frames R (rescan_to_loop n k l). Proof. induction l as [|d t IH]; cbn [rescan_to_loop]; f; auto using y_item_enter, y_leave_to. Qed.
  Lemma y_st_set_cap : forall n k cap, frames R (st_set_cap n k cap). Proof. intros n k cap. unfold st_set_cap, set_kmav. f; auto using y_rescan_to_loop. Qed.
  Lemma y_run : forall sp p u cap, frames R (run sp p u cap). Proof. intros. unfold run. f. Qed.
  Definition nostate (o : op) : bool :=
    match o with OWait _ _ _ _ _ _ _ | OWaitFor _ _ _ _ _ _ _ | OSet _ _ | OTrigger _ _ _ _ | OResume _ _ _ _ => false | _ => true end.
  Lemma y_exec : forall n o, nostate o = true -> frames R (exec n o).
  Proof.
    intros n o H. destruct o; try discriminate; cbn [exec]; auto using y_create, y_activate, y_hold, y_passivate, y_interrupt, y_cancel, y_standby,
        y_set_remaining, y_release, y_res_release, y_set_cap, y_item_enter, y_item_leave, y_st_set_cap, y_rescan, y_set_filter, y_run, y_step; try (unfold reset_now; f; fail).
    - unfold request, request1, fail_time, check_notdata, check_notmain. f; auto using y_release1, y_activate, y_c_try, y_r_try.
    - unfold from_store, fail_time, check_notdata, check_notmain. f; auto using y_item_leave.
    - unfold to_store, fail_time, check_notdata, check_notmain. f; auto using y_to_try.
    - f. apply y_terminate.
  Qed.
End Y.

Lemma y_resume : forall c a p u s, EL s -> wp (resume c a p u) (fun _ s' => Rw s s') (fun _ s' => Rw s s') s.
Proof.
  intros c a p u s E. unfold resume. pose proof (po_refl _ Rw_po s) as R0.
  assert (T : forall f z, Rw s z -> (forall y, c_status (f y) = Waiting -> c_waits (f y) = [] \/ sameW y (f y)) -> Rw s (m_comp c f z)) by (intros; eapply (po_trans _ Rw_po); [eassumption | apply Rw_comp; auto]).
  apply wp_bind, wp_stat. apply wp_if; intros I; [|apply wp_raise; auto]. apply steqb_iff in I. apply wp_bind, wp_setc, wp_bind, wp_get.
  set (s1 := m_comp c (fun x => w_ilevel (c_ilevel x - 1)%Z x) s). assert (R1 : Rw s s1) by (apply T; auto; right; unfold sameW; auto).
  apply wp_if; intros _; [apply wp_ret; auto|]. apply wp_bind, wp_setc.
  set (s2 := m_comp c (fun x => w_status (c_istat x) x) s1).
  assert (R2 : Rw s s2).
  { split; [reflexivity|]. intros d K. unfold s2, s1 in *. rewrite !comps_m_comp, ?Nat.eqb_refl in *. destruct (Nat.eqb_spec d c) as [D|D].
    - subst. cbn in K. destruct (E c) as (_ & X). rewrite X in K by auto. discriminate.
    - right. unfold sameW. auto. }
  apply wp_bind, wp_stat. apply wp_if; intros _; [|apply wp_raise; auto]. apply wp_bind, wp_get.
  eapply wp_conseq; [apply (frames_wp _ _ _ s2 (y_resched c _ p u (Some false))) | |]; cbv beta; intros; eapply (po_trans _ Rw_po); eauto.
Qed.
(** ** wait and wait_for *)
Record oth (c : nat) (s s' : env) : Prop := {
  ot_sval : sval s' = sval s; ot_now : now s' = now s; ot_oth : forall d, d <> c -> comps s' d = comps s d;
  ot_st : c_status (comps s c) <> Interrupted -> c_status (comps s' c) <> Interrupted }.
Lemma oth_po : forall c, preorder (oth c).
Proof.
  intros c. constructor; [constructor; auto|]. intros x y z [A1 A2 A3 A4] [B1 B2 B3 B4]. constructor; auto; try congruence. intros d N. rewrite B3, A3; auto.
Qed.
Lemma oth_same : forall c s s', sval s' = sval s -> now s' = now s -> comps s' = comps s -> oth c s s'.
Proof. intros c s s' A B C. constructor; auto; rewrite C; auto. Qed.
Lemma oth_comp : forall c f s, (c_status (comps s c) <> Interrupted -> c_status (f (comps s c)) <> Interrupted) -> oth c s (m_comp c f s).
Proof. intros c f s H. constructor; auto; [intros; apply comps_diff; auto | rewrite comps_same; auto]. Qed.
Ltac fo c := fgo (oth_po c); try (apply oth_comp; cbn; first [congruence | auto]; fail); try (apply oth_same; reflexivity).
Lemma o_q_leave : forall c q d, frames (oth c) (q_leave q d). Proof. intros. unfold q_leave. fo c. Qed.
Lemma o_q_enter : forall c q d p, frames (oth c) (q_enter q d p). Proof. intros. unfold q_enter. fo c. Qed.
Lemma o_leave_req : forall c r, frames (oth c) (leave_req c r). Proof. intros. unfold leave_req. fo c; apply o_q_leave. Qed.
Lemma o_check_fail : forall c, frames (oth c) (check_fail c). Proof. intros. unfold check_fail. fo c; auto using o_q_leave, o_leave_req. Qed.
Lemma o_remove : forall c, frames (oth c) (remove c). Proof. intros. unfold remove. fo c. Qed.
Lemma o_fail_time : forall c f, frames (oth c) (fail_time f). Proof. intros. unfold fail_time. fo c. Qed.
Lemma o_wait1 : forall c a, frames (oth c) (wait1 c a). Proof. intros c ((st, h), p). unfold wait1. fo c; auto using o_q_enter. Qed.
Lemma o_reschedule : forall c t p u cap, frames (oth c) (reschedule c t p u cap). Proof. intros. unfold reschedule, push. fo c. Qed.
Lemma c_trywait_full : forall c s,
  wp (c_trywait c) (fun b s' => (b = false /\ can s c = false /\ s' = s) \/
     (b = true /\ can s c = true /\ c_waits (comps s' c) = [] /\ c_status (comps s' c) = Scheduled /\ c_sched (comps s' c) = Fin (now s) /\ oth c s s')) (fun _ _ => True) s.
Proof.
  intros c s. destruct (can s c) eqn:C.
  2: { unfold wp. rewrite (c_trywait_no _ _ C). auto. }
  pose proof C as C0. unfold can in C. apply andb_prop in C. destruct C as (C1 & C2). apply negb_true_iff in C1.
  unfold c_trywait. apply wp_bind, wp_stat. rewrite C1. apply wp_bind, wp_get. rewrite C2. apply wp_bind, wp_get, wp_bind.
  eapply wp_conseq; [apply w_leave_waits_exact | cbv beta | intros ? ? []]. intros _ s1 (A1 & _). apply wp_bind, wp_setc.
  set (s2 := m_comp c (w_waits []) s1).
  assert (O2 : oth c s s2). { eapply (po_trans _ (oth_po c)) with (b := s1); [apply oth_same; rewrite A1; reflexivity | apply oth_comp; auto]. }
  assert (W2 : c_waits (comps s2 c) = []) by (unfold s2; rewrite comps_same; auto).
  set (R := fun z z' : env => c_waits (comps z c) = [] -> c_waits (comps z' c) = []).
  assert (PO : preorder R) by (constructor; unfold R; auto).
  assert (KC : forall f z, c_waits (f (comps z c)) = c_waits (comps z c) -> R z (m_comp c f z)).
  { unfold R. intros f s4 E. rewrite comps_same. congruence. }
  assert (FR : frames R (remove c)). { unfold remove. fgo PO; try (apply KC; reflexivity); unfold R; auto. }
  apply wp_bind. eapply wp_conseq; [apply wp_and; [apply (frames_wp _ _ _ s2 FR) | apply (frames_wp _ _ _ s2 (o_remove c))] | cbv beta | auto].
  intros _ s3 (W3 & O3). apply wp_bind, wp_setc, wp_bind, wp_get. change (now (m_comp c (w_status Scheduled) s3)) with (now s3).
  specialize (W3 W2). assert (O4 : oth c s (m_comp c (w_status Scheduled) s3)).
  { eapply (po_trans _ (oth_po c)); [exact O2|]. eapply (po_trans _ (oth_po c)); [exact O3|]. apply oth_comp. cbn. congruence. }
  apply wp_bind. set (s4 := m_comp c (w_status Scheduled) s3) in *.
  assert (FS : frames R (reschedule c (Fin (now s3)) (Fin 0) false (Some false))). { unfold reschedule, push. fgo PO; try (apply KC; reflexivity); unfold R; auto. }
  eapply wp_conseq; [apply wp_and; [apply (frames_wp _ _ _ s4 FS) | apply wp_and; [apply (frames_wp _ _ _ s4 (o_reschedule c (Fin (now s3)) (Fin 0) false (Some false))) | apply w_reschedule]] | cbv beta | auto].
  intros _ s5 (W5 & O5 & _ & _ & T5 & S5 & _). apply wp_ret. right. split; auto. split; auto.
  assert (W4 : c_waits (comps s4 c) = []) by (unfold s4; rewrite comps_same; auto).
  split; [auto|]. split; [rewrite S5; unfold s4; rewrite comps_same; auto|]. split; [|eapply (po_trans _ (oth_po c)); eauto].
  rewrite T5. unfold eff. assert (N4 : now s4 = now s) by apply O4. assert (N3 : now s3 = now s4) by reflexivity.
  rewrite N4. destruct (xltb (Fin (now s3)) (Fin (now s))); congruence.
Qed.

(** the last part of wait and wait_for *)
Lemma w_wait_tail : forall c t p u cap s, c_waits (comps s c) <> [] ->
  wp (c_trywait c ;;; ws' <- get (fun s => c_waits (comps s c)) ;; when (nonnil ws') (setc c (w_status Waiting) ;;; reschedule c t p u cap))
    (fun _ s' => oth c s s' /\
      ((can s c = true /\ c_waits (comps s' c) = [] /\ c_status (comps s' c) = Scheduled /\ c_sched (comps s' c) = Fin (now s)) \/
       (can s c = false /\ c_status (comps s' c) = Waiting /\ c_waits (comps s' c) = c_waits (comps s c) /\ c_wall (comps s' c) = c_wall (comps s c) /\ c_cond (comps s' c) = c_cond (comps s c)
        /\ c_sched (comps s' c) = eff t s)))
    (fun _ _ => True) s.
Proof.
  intros c t p u cap s N. apply wp_bind. eapply wp_conseq; [apply c_trywait_full | cbv beta | auto]. intros b s1 [(-> & A & ->)|(-> & A & W & S & T & O)]; apply wp_bind, wp_get.
  - rewrite (proj2 (nonnil_true _ _) N). cbn [when]. apply wp_bind, wp_setc. set (s2 := m_comp c (w_status Waiting) s).
    set (R := fun z z' : env => c_waits (comps z' c) = c_waits (comps z c) /\ c_wall (comps z' c) = c_wall (comps z c) /\ c_cond (comps z' c) = c_cond (comps z c)).
    assert (PO : preorder R). { constructor; unfold R; [auto|]. intros x y z (A1 & A2 & A3) (B1 & B2 & B3). repeat split; congruence. }
    assert (FS : frames R (reschedule c t p u cap)).
    { unfold reschedule, push. fgo PO; try (unfold R; rewrite comps_same; cbn; auto; fail); unfold R; auto. }
    eapply wp_conseq; [apply wp_and; [apply (frames_wp _ _ _ s2 FS) | apply wp_and; [apply (frames_wp _ _ _ s2 (o_reschedule c t p u cap)) | apply w_reschedule]] | cbv beta | auto].
    intros _ s3 ((R1 & R2 & R3) & O3 & _ & _ & T3 & S3 & _). unfold s2 in R1, R2, R3, S3. rewrite comps_same in R1, R2, R3, S3.
    split; [eapply (po_trans _ (oth_po c)); [|exact O3]; apply oth_comp; cbn; congruence|]. right. repeat split; auto.
  - rewrite W. cbn [nonnil when]. apply wp_ret. split; auto.
Qed.
Lemma w_wait : forall c args all fail p u cap s, c_status (comps s c) <> Interrupted -> (c_status (comps s c) = Current -> c_waits (comps s c) = []) ->
  wp (wait c args all fail p u cap)
    (fun _ s' => exists s1, args <> [] /\ oth c s s1 /\ oth c s1 s' /\ c_waits (comps s1 c) = map fst args /\ c_wall (comps s1 c) = all /\ c_cond (comps s1 c) = None /\
      ((can s1 c = true /\ c_waits (comps s' c) = [] /\ c_status (comps s' c) = Scheduled /\ c_sched (comps s' c) = Fin (now s)) \/
       (can s1 c = false /\ c_status (comps s' c) = Waiting /\ c_waits (comps s' c) = map fst args /\ c_wall (comps s' c) = all /\ c_cond (comps s' c) = None)))
    (fun _ _ => True) s.
Proof.
  intros c args all fail p u cap s SI SC. unfold wait. apply wp_bind, wp_setc. set (s0 := m_comp c (w_cond None) s).
  assert (O0 : oth c s s0) by (apply oth_comp; auto). assert (C0 : c_cond (comps s0 c) = None) by (unfold s0; rewrite comps_same; auto).
  apply wp_bind, wp_stat.
  assert (ST0 : c_status (comps s0 c) = c_status (comps s c)) by (unfold s0; rewrite comps_same; auto).
  assert (WT0 : c_waits (comps s0 c) = c_waits (comps s c)) by (unfold s0; rewrite comps_same; auto).
  set (R := fun z z' : env => c_cond (comps z' c) = c_cond (comps z c)).
  assert (PO : preorder R). { constructor; unfold R; congruence. }
  assert (KC : forall f z, c_cond (f (comps z c)) = c_cond (comps z c) -> R z (m_comp c f z)) by (intros f z E; unfold R; rewrite comps_same; auto).
  assert (FR : frames R (remove c)). { unfold remove. fgo PO; try (apply KC; reflexivity); unfold R; auto. }
  assert (FQ : forall q, frames R (q_leave q c)). { intros. unfold q_leave. fgo PO; unfold R; auto. }
  assert (FL : forall r, frames R (leave_req c r)). { intros. unfold leave_req. fgo PO; auto; unfold R; auto. }
  assert (FC : frames R (check_fail c)). { unfold check_fail. fgo PO; auto; try (apply KC; reflexivity); unfold R; auto. }
  apply wp_bind.
  assert (P : wp (when (negb (steqb (c_status (comps s0 c)) Current)) (check_notdata c ;;; check_notmain c ;;; remove c ;;; check_fail c))
    (fun _ z => oth c s z /\ c_waits (comps z c) = [] /\ c_cond (comps z c) = None) (fun _ _ => True) s0).
  { destruct (steqb (c_status (comps s0 c)) Current) eqn:E; cbn [negb when].
    - apply wp_ret. apply steqb_iff in E. rewrite ST0 in E. rewrite WT0. auto.
    - unfold check_notdata, check_notmain. apply wp_bind, wp_bind, wp_stat, wp_when; intros _; [apply wp_raise; auto|]. apply wp_bind, wp_when; intros _; [apply wp_raise; auto|].
      apply wp_bind. eapply wp_conseq; [apply wp_and; [apply (frames_wp _ _ _ s0 (o_remove c)) | apply (frames_wp _ _ _ s0 FR)] | cbv beta | auto].
      intros _ z (O1 & R1). eapply wp_conseq; [apply wp_and; [apply (frames_wp _ _ _ z (o_check_fail c)) | apply wp_and; [apply (frames_wp _ _ _ z FC) | apply w_check_fail_free]] | cbv beta | auto].
      intros _ z2 (O2 & R2 & F). split; [eapply (po_trans _ (oth_po c)); [exact O0|]; eapply (po_trans _ (oth_po c)); eauto|].
      split; [apply F | unfold R in *; congruence]. }
  eapply wp_conseq; [exact P | cbv beta | auto]. intros _ s2 (O2 & W2 & C2). apply wp_bind, wp_setc, wp_bind, wp_setc.
  match goal with |- wp _ _ _ ?z => set (s3 := z) end.
  assert (O3 : oth c s s3). { eapply (po_trans _ (oth_po c)); [exact O2|]. eapply (po_trans _ (oth_po c)); apply oth_comp; auto. }
  assert (S3 : c_waits (comps s3 c) = [] /\ c_cond (comps s3 c) = None /\ c_wall (comps s3 c) = all) by (unfold s3; rewrite !comps_same; auto).
  apply wp_bind. assert (FT : wp (fail_time fail) (fun _ z => z = s3) (fun _ _ => True) s3).
  { unfold fail_time. destruct fail; [apply wp_ret | apply wp_get | apply wp_get | apply wp_raise]; auto. }
  eapply wp_conseq; [exact FT | cbv beta | auto]. intros t ? ->. apply wp_bind.
  assert (MF : forall l done z, oth c s z -> c_waits (comps z c) = done -> c_cond (comps z c) = None -> c_wall (comps z c) = all ->
    wp (mfor l (wait1 c)) (fun _ z' => oth c s z' /\ c_waits (comps z' c) = done ++ map fst l /\ c_cond (comps z' c) = None /\ c_wall (comps z' c) = all) (fun _ _ => True) z).
  { induction l as [|((st, h), q) l IH]; intros done z A B C D; cbn [mfor map fst]; [apply wp_ret; rewrite app_nil_r; auto|]. apply wp_bind.
    assert (W1 : wp (wait1 c (st, h, q)) (fun _ z' => oth c s z' /\ c_waits (comps z' c) = done ++ [(st, h)] /\ c_cond (comps z' c) = None /\ c_wall (comps z' c) = all) (fun _ _ => True) z).
    { unfold wait1. apply wp_bind, wp_get, wp_bind.
      assert (W0 : wp (when (negb (memb st (map fst (c_waits (comps z c))))) (q_enter (QWait st) c q)) (fun _ z' => oth c s z' /\ comps z' = comps z) (fun _ _ => True) z).
      { apply wp_when; intros _; auto. unfold q_enter. apply wp_bind, wp_get. apply wp_if; intros _; [apply wp_raise; auto|]. apply wp_put. split; auto.
        eapply (po_trans _ (oth_po c)); [exact A | apply oth_same; reflexivity]. }
      eapply wp_conseq; [exact W0 | cbv beta | auto]. intros _ z1 (A1 & B1). apply wp_setc. split; [eapply (po_trans _ (oth_po c)); [exact A1 | apply oth_comp; auto]|].
      rewrite comps_same, B1. cbn. rewrite B. auto. }
    eapply wp_conseq; [exact W1 | cbv beta | auto]. intros _ z1 (A1 & B1 & C1 & D1). eapply wp_conseq; [apply (IH (done ++ [(st, h)]) z1); auto | cbv beta | auto].
    intros _ z2 (A2 & B2 & C2' & D2). rewrite <- app_assoc in B2. auto. }
  destruct S3 as (W3 & C3 & L3). eapply wp_conseq; [apply (MF args [] s3); auto | cbv beta | auto]. clear MF. intros _ s4 (O4 & W4 & C4 & L4). cbn [app] in W4.
  apply wp_bind, wp_get, wp_bind, wp_when; intros NN; [apply wp_raise; auto|]. apply negb_false_iff, nonnil_true in NN.
  apply wp_bind, wp_get, wp_bind, wp_setc. match goal with |- wp _ _ _ ?z => set (s5 := z) end.
  assert (O5 : oth c s s5). { eapply (po_trans _ (oth_po c)); [exact O4 | apply oth_comp; auto]. }
  assert (S5 : c_waits (comps s5 c) = map fst args /\ c_cond (comps s5 c) = None /\ c_wall (comps s5 c) = all) by (unfold s5; rewrite !comps_same; auto).
  destruct S5 as (W5 & C5 & L5). eapply wp_conseq; [apply w_wait_tail | cbv beta | auto]; [rewrite W5, <- W4; exact NN|].
  intros _ s6 (O6 & H). exists s5. split; [intros ->; cbn in W4; congruence|]. split; auto. split; auto. split; auto. split; auto. split; auto.
  rewrite (ot_now _ _ _ O5) in H. destruct H as [H|(H1 & H2 & H3 & H4 & H5 & _)]; [left; auto | right]. repeat split; congruence.
Qed.
Definition anyv (t : nat) : nat * (Z -> bool) := (t, fun _ => true).
Lemma w_wait_for : forall c cond states fail p u cap s, c_status (comps s c) <> Interrupted -> (c_status (comps s c) = Current -> c_waits (comps s c) = []) ->
  wp (wait_for c cond states fail p u cap)
    (fun _ s' => exists s1, states <> [] /\ oth c s s1 /\ oth c s1 s' /\ c_waits (comps s1 c) = map anyv states /\ c_cond (comps s1 c) = Some cond /\
      ((can s1 c = true /\ c_waits (comps s' c) = [] /\ c_status (comps s' c) = Scheduled /\ c_sched (comps s' c) = Fin (now s)) \/
       (can s1 c = false /\ c_status (comps s' c) = Waiting /\ c_waits (comps s' c) = map anyv states /\ c_cond (comps s' c) = Some cond)))
    (fun _ _ => True) s.
Proof.
  intros c cond states fail p u cap s SI SC. unfold wait_for. apply wp_bind, wp_stat.
  apply wp_bind.
  assert (P : wp (when (negb (steqb (c_status (comps s c)) Current)) (check_notdata c ;;; check_notmain c ;;; remove c ;;; check_fail c))
    (fun _ z => oth c s z /\ c_waits (comps z c) = []) (fun _ _ => True) s).
  { destruct (steqb (c_status (comps s c)) Current) eqn:E; cbn [negb when].
    - apply wp_ret. apply steqb_iff in E. split; [apply (po_refl _ (oth_po c)) | auto].
    - unfold check_notdata, check_notmain. apply wp_bind, wp_bind, wp_stat, wp_when; intros _; [apply wp_raise; auto|]. apply wp_bind, wp_when; intros _; [apply wp_raise; auto|].
      apply wp_bind. eapply wp_conseq; [apply (frames_wp _ _ _ s (o_remove c)) | cbv beta | auto].
      intros _ z O1. eapply wp_conseq; [apply wp_and; [apply (frames_wp _ _ _ z (o_check_fail c)) | apply w_check_fail_free] | cbv beta | auto].
      intros _ z2 (O2 & F). split; [eapply (po_trans _ (oth_po c)); eauto | apply F]. }
  eapply wp_conseq; [exact P | cbv beta | auto]. intros _ s2 (O2 & W2). apply wp_bind, wp_setc.
  match goal with |- wp _ _ _ ?z => set (s3 := z) end.
  assert (O3 : oth c s s3). { eapply (po_trans _ (oth_po c)); [exact O2|]. apply oth_comp; auto. }
  apply wp_bind. assert (FT : wp (fail_time fail) (fun _ z => z = s3) (fun _ _ => True) s3).
  { unfold fail_time. destruct fail; [apply wp_ret | apply wp_get | apply wp_get | apply wp_raise]; auto. }
  eapply wp_conseq; [exact FT | cbv beta | auto]. intros t ? ->. apply wp_bind, wp_setc, wp_bind.
  match goal with |- wp _ _ _ ?z => set (s3' := z) end.
  assert (O3' : oth c s s3'). { eapply (po_trans _ (oth_po c)); [exact O3|]. apply oth_comp; auto. }
  assert (S3 : c_waits (comps s3' c) = [] /\ c_cond (comps s3' c) = Some cond) by (unfold s3', s3; rewrite !comps_same; auto).
  match goal with |- wp (mfor states ?f) _ _ _ => set (body := f) end.
  assert (MF : forall l done z, oth c s z -> c_waits (comps z c) = done -> c_cond (comps z c) = Some cond ->
    wp (mfor l body) (fun _ z' => oth c s z' /\ c_waits (comps z' c) = done ++ map anyv l /\ c_cond (comps z' c) = Some cond) (fun _ _ => True) z).
  { induction l as [|st l IH]; intros done z A B C; cbn [mfor map]; [apply wp_ret; rewrite app_nil_r; auto|]. apply wp_bind.
    assert (W1 : wp (body st) (fun _ z' => oth c s z' /\ c_waits (comps z' c) = done ++ [anyv st] /\ c_cond (comps z' c) = Some cond) (fun _ _ => True) z).
    { unfold body. apply wp_bind, wp_setc. unfold q_enter. apply wp_bind, wp_get. apply wp_if; intros _; [apply wp_raise; auto|]. apply wp_put.
      match goal with |- oth c s ?y /\ _ => assert (Y : comps y c = w_waits (c_waits (comps z c) ++ [anyv st]) (comps z c)) end.
      { change (comps (m_comp c (fun x => w_waits (c_waits x ++ [(st, fun _ => true)]) x) z) c = w_waits (c_waits (comps z c) ++ [anyv st]) (comps z c)). rewrite comps_same. reflexivity. }
      rewrite Y. cbn. rewrite B. split; [|auto].
      eapply (po_trans _ (oth_po c)); [exact A|]. eapply (po_trans _ (oth_po c)); [apply oth_comp with (f := fun x => w_waits (c_waits x ++ [(st, fun _ => true)]) x); auto | apply oth_same; reflexivity]. }
    eapply wp_conseq; [exact W1 | cbv beta | auto]. intros _ z1 (A1 & B1 & C1). eapply wp_conseq; [apply (IH (done ++ [anyv st]) z1); auto | cbv beta | auto].
    intros _ z2 (A2 & B2 & C2'). rewrite <- app_assoc in B2. auto. }
  destruct S3 as (W3 & C3). eapply wp_conseq; [apply (MF states [] s3'); auto | cbv beta | auto]. clear MF. intros _ s4 (O4 & W4 & C4). cbn [app] in W4.
  apply wp_bind, wp_get, wp_bind, wp_when; intros NN; [apply wp_raise; auto|]. apply negb_false_iff, nonnil_true in NN.
  apply wp_bind, wp_get, wp_bind, wp_setc. match goal with |- wp _ _ _ ?z => set (s5 := z) end.
  assert (O5 : oth c s s5). { eapply (po_trans _ (oth_po c)); [exact O4 | apply oth_comp; auto]. }
  assert (S5 : c_waits (comps s5 c) = map anyv states /\ c_cond (comps s5 c) = Some cond) by (unfold s5; rewrite !comps_same; auto).
  destruct S5 as (W5 & C5). eapply wp_conseq; [apply w_wait_tail | cbv beta | auto]; [rewrite W5, <- W4; exact NN|].
  intros _ s6 (O6 & H). exists s5. split; [intros ->; cbn in W4; congruence|]. split; auto. split; auto. split; auto. split; auto.
  rewrite (ot_now _ _ _ O5) in H. destruct H as [H|(H1 & H2 & H3 & H4 & H5 & _)]; [left; auto | right]. repeat split; congruence.
Qed.

(** ** State.set and State.trigger *)
Lemma wakes_facts : forall s hs s', wakes s hs s' -> sval s' = sval s /\ now s' = now s /\ (forall d, ~ In d hs -> comps s' d = comps s d) /\
  (forall d, In d hs -> c_status (comps s' d) = Scheduled /\ c_waits (comps s' d) = [] /\ c_sched (comps s' d) = Fin (now s)).
Proof.
  induction 1 as [|s c s1 hs s2 W K (I1 & I2 & I3 & I4)]; [repeat split; auto; try contradiction|].
  rewrite I1, I2, (wk_sval _ _ _ W), (wk_now _ _ _ W). split; auto. split; auto. split.
  - intros d N. rewrite I3; [apply W|]; intros X; apply N; cbn; auto.
  - intros d D. destruct (in_dec Nat.eq_dec d hs) as [Y|Y]; [rewrite <- (wk_now _ _ _ W); auto|]. destruct D as [->|D]; [|contradiction]. rewrite (I3 d Y), (wk_self _ _ _ W). auto.
Qed.
Lemma st_trywait_exact : forall st mx s, EI s -> GI none s ->
  exists s', st_trywait st mx s = (s', Ok tt) /\ wakes s (pick mx (filter (can s) (map fst (qs s (QWait st))))) s' /\ EI s' /\ GI none s'.
Proof.
  intros st mx s E G. destruct (s_trywait_exact (map fst (qs s (QWait st))) mx s (gi_nd _ _ G _) E) as (s' & T & W). exists s'. split; [exact T|]. split; auto.
  split; [pose proof (re_s_trywait (map fst (qs s (QWait st))) mx s E) as F | pose proof (gq_s_trywait (map fst (qs s (QWait st))) mx s G) as F]; rewrite T in F; exact F.
Qed.
Definition setv (st : nat) (v : Z) (s : env) : env := s_sval (upd (sval s) st v) s.
Lemma EI_setv : forall st v s, EI s -> EI (setv st v s). Proof. intros st v s []. constructor; auto. Qed.
Lemma GI_setv : forall st v s, GI none s -> GI none (setv st v s). Proof. intros st v s []. constructor; auto. Qed.
Lemma st_set_exact : forall st v s, EI s -> GI none s -> sval s st <> v ->
  exists s', st_set st v s = (s', Ok tt) /\ wakes (setv st v s) (filter (can (setv st v s)) (map fst (qs s (QWait st)))) s'.
Proof.
  intros st v s E G N. destruct (st_trywait_exact st None (setv st v s) (EI_setv st v s E) (GI_setv st v s G)) as (s' & T & W & _). exists s'. split; [|exact W].
  unfold st_set, bind, get. destruct (Z.eqb_spec (sval s st) v); [contradiction|]. cbn [negb when]. unfold set_sval, bind, put. exact T.
Qed.
Lemma st_set_same : forall st v s, sval s st = v -> st_set st v s = (s, Ok tt).
Proof. intros st v s E. unfold st_set, bind, get. rewrite E, Z.eqb_refl. reflexivity. Qed.
Lemma st_trigger_exact : forall st v a mx s, EI s -> GI none s ->
  exists s1 s', st_trigger st v a mx s = (s', Ok tt) /\
    wakes (setv st v s) (pick mx (filter (can (setv st v s)) (map fst (qs s (QWait st))))) s1 /\
    let s2 := setv st (match a with Some x => x | None => sval s st end) s1 in
    wakes s2 (filter (can s2) (map fst (qs s1 (QWait st)))) s' /\ GI none s1.
Proof.
  intros st v a mx s E G. destruct (st_trywait_exact st mx (setv st v s) (EI_setv st v s E) (GI_setv st v s G)) as (s1 & T & W & E1 & G1).
  set (va := match a with Some x => x | None => sval s st end).
  destruct (st_trywait_exact st None (setv st va s1) (EI_setv st va s1 E1) (GI_setv st va s1 G1)) as (s' & T2 & W2 & _). exists s1, s'. split; [|split; [exact W | split; [exact W2 | exact G1]]].
  unfold st_trigger, bind, get. fold va. unfold set_sval, put. fold (setv st v s). rewrite T. fold (setv st va s1). exact T2.
Qed.

(** ** no waiting component whose condition is met *)
Definition local (x : comp) : Prop :=
  match c_cond x with None => True | Some f => forall v w : nat -> Z, (forall t, In t (map fst (c_waits x)) -> v t = w t) -> f v = f w end.
Definition WIx (st : option nat) (s : env) : Prop :=
  forall c, c_status (comps s c) = Waiting -> c_waits (comps s c) <> [] -> local (comps s c) ->
    match st with Some t => ~ In t (map fst (c_waits (comps s c))) | None => True end -> wait_ok s (comps s c) = false.
Definition WI := WIx None.
Lemma wait_ok_local : forall s s' x, local x -> (forall t, In t (map fst (c_waits x)) -> sval s t = sval s' t) -> wait_ok s x = wait_ok s' x.
Proof.
  intros s s' x L H. unfold wait_ok. unfold local in L. destruct (c_cond x) as [f|]; [apply L; auto|].
  assert (forall w, In w (c_waits x) -> snd w (sval s (fst w)) = snd w (sval s' (fst w))) by (intros w I; rewrite H; auto; apply in_map; auto).
  revert H0. generalize (c_waits x). destruct (c_wall x); induction l as [|a l IH]; cbn; auto; intros K; rewrite K, IH; auto.
Qed.
Lemma WI_Rw : forall s s', Rw s s' -> WI s -> WI s'.
Proof.
  intros s s' (V & R) W c S N L _. destruct (R c S) as [E|(A & B & C & D)]; [contradiction|].
  assert (wait_ok s' (comps s' c) = wait_ok s (comps s c)) by (unfold wait_ok; rewrite V, B, C, D; reflexivity). rewrite H. apply W; auto; [congruence|].
  unfold local in *. rewrite B, D in L. exact L.
Qed.
Lemma WIx_setv : forall st v s o, (o = None \/ o = Some st) -> WIx o s -> WIx (Some st) (setv st v s).
Proof.
  intros st v s o O W c S N L I. cbn in *.
  rewrite (wait_ok_local (setv st v s) s); auto; [apply (W c); auto; destruct O; subst o; auto|]. intros t J. cbn. rewrite upd_diff; auto. intros ->. auto.
Qed.
Lemma WIx_wakes : forall o s hs s', wakes s hs s' -> WIx o s -> WIx o s'.
Proof.
  intros o s hs s' K W c S N L I. destruct (wakes_facts _ _ _ K) as (V & _ & A & B).
  destruct (in_dec Nat.eq_dec c hs) as [J|J]; [destruct (B c J) as (B1 & _); congruence|]. rewrite (A c J) in *.
  assert (E : wait_ok s' (comps s c) = wait_ok s (comps s c)) by (unfold wait_ok; rewrite V; reflexivity). rewrite E. apply (W c); auto.
Qed.
Lemma WI_wakes : forall st s s', GI none s -> wakes s (filter (can s) (map fst (qs s (QWait st)))) s' -> WIx (Some st) s -> WI s'.
Proof.
  intros st s s' G K W c S N L _. destruct (wakes_facts _ _ _ K) as (V & _ & A & B).
  set (hs := filter (can s) (map fst (qs s (QWait st)))) in *.
  destruct (in_dec Nat.eq_dec c hs) as [J|J]; [destruct (B c J) as (B1 & _); congruence|]. rewrite (A c J) in *.
  assert (E : wait_ok s' (comps s c) = wait_ok s (comps s c)) by (unfold wait_ok; rewrite V; reflexivity). rewrite E.
  destruct (in_dec Nat.eq_dec st (map fst (c_waits (comps s c)))) as [I|I]; [|apply (W c); auto].
  assert (M : mem s (QWait st) c) by (apply (gi_mem _ _ G (QWait st) c eq_refl); split; [exact I | intros []]).
  destruct (wait_ok s (comps s c)) eqn:O; auto. destruct J. apply filter_In. split; [exact M|]. unfold can. rewrite S, O. reflexivity.
Qed.
(** the component that starts to wait is not an interrupted one *)
Definition awake (s : env) (o : op) : Prop :=
  match o with OWait c _ _ _ _ _ _ | OWaitFor c _ _ _ _ _ _ => c_status (comps s c) <> Interrupted | _ => True end.
Lemma WI_exec : forall n o s s' r, QI s -> awake s o -> exec n o s = (s', r) -> (forall e, r = Er e -> caught o e /\ calm o) -> WI s -> WI s'.
Proof.
  intros n o s s' r Q A E C W. destruct (nostate o) eqn:NS.
  { eapply WI_Rw; [|exact W]. pose proof (y_exec n o NS s) as F. rewrite E in F. exact F. }
  assert (KW : forall c s1, oth c s s1 -> oth c s1 s' ->
     (c_waits (comps s' c) = [] \/ (wait_ok s1 (comps s1 c) = false /\ c_waits (comps s' c) = c_waits (comps s1 c) /\ c_cond (comps s' c) = c_cond (comps s1 c) /\
        (c_cond (comps s' c) = None -> c_wall (comps s' c) = c_wall (comps s1 c)))) -> WI s').
  { intros c s1 O1 O2 H d S N L _. destruct (Nat.eq_dec d c) as [->|D].
    - destruct H as [H|(H1 & H2 & H3 & H4)]; [contradiction|]. rewrite <- H1. unfold wait_ok. rewrite (ot_sval _ _ _ O2), H2, H3.
      destruct (c_cond (comps s1 c)); auto. rewrite H4 by congruence. reflexivity.
    - assert (X : comps s' d = comps s d) by (rewrite (ot_oth _ _ _ O2), (ot_oth _ _ _ O1); auto). rewrite X in *.
      unfold wait_ok. rewrite (ot_sval _ _ _ O2), (ot_sval _ _ _ O1). apply (W d); auto. }
  assert (UN : forall c, c_status (comps s c) = Current -> c_waits (comps s c) = []).
  { intros c X. apply (free_idle s c); [apply (qi_k _ Q) | apply Q | rewrite X; auto with idle]. }
  destruct o; try discriminate; cbn [exec] in E.
  - pose proof (y_resume c all prio urgent s (ki_l _ (qi_k _ Q))) as F. unfold wp in F. rewrite E in F. destruct r; eapply WI_Rw; eauto.
  - pose proof (w_wait c args all fail prio urgent cap s A (UN c)) as F. unfold wp in F. rewrite E in F. destruct r as [a|e]; [|destruct (C e eq_refl) as (_ & [])].
    destruct F as (s1 & _ & O1 & O2 & F1 & F2 & F3 & F). apply (KW c s1); auto. destruct F as [(_ & F & _)|(F4 & F5 & F6 & F7 & F8)]; auto. right. repeat split; try congruence.
    unfold can in F4. pose proof (ot_st _ _ _ O1 A) as SN. apply steqb_false_iff in SN. rewrite SN in F4. exact F4.
  - pose proof (w_wait_for c cond states fail prio urgent cap s A (UN c)) as F. unfold wp in F. rewrite E in F. destruct r as [a|e]; [|destruct (C e eq_refl) as (_ & [])].
    destruct F as (s1 & _ & O1 & O2 & F1 & F2 & F). apply (KW c s1); auto. destruct F as [(_ & F & _)|(F4 & F5 & F6 & F7)]; auto. right. repeat split; try congruence.
    unfold can in F4. pose proof (ot_st _ _ _ O1 A) as SN. apply steqb_false_iff in SN. rewrite SN in F4. exact F4.
  - destruct (Z.eq_dec (sval s st) v) as [X|X]; [rewrite (st_set_same _ _ _ X) in E; injection E as <- _; auto|].
    destruct (st_set_exact st v s (ki_e _ (qi_k _ Q)) (qi_g _ Q) X) as (z & T & K). rewrite E in T. injection T as -> _.
    apply (WI_wakes st (setv st v s)); [apply GI_setv, Q | exact K | eapply WIx_setv; [left; reflexivity | exact W]].
  - destruct (st_trigger_exact st v after mx s (ki_e _ (qi_k _ Q)) (qi_g _ Q)) as (s1 & z & T & K & K2 & G1). rewrite E in T. injection T as -> _.
    eapply (WI_wakes st); [apply GI_setv, G1 | exact K2 |]. eapply WIx_setv; [right; reflexivity|]. eapply WIx_wakes; [exact K|]. eapply WIx_setv; [left; reflexivity | exact W].
Qed.
Lemma WI_init : forall t0 R sv kc hp y d, WI (init t0 R sv kc hp y d).
Proof. intros t0 R sv kc hp y d c S. destruct (comps_init t0 R sv kc hp y d c) as (b & st & E). rewrite E. cbn. congruence. Qed.
