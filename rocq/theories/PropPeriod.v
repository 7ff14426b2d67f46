(** Property C68: the monitors of a PeriodMonitor divide what happens to the parent monitor among the periods. *)
From Coq Require Import QArith Lqa List Bool Arith ZArith Lia.
From Verif Require Import Base Util Mon MonSpec MonP MonQ MonR PropMon Period PeriodP.
Import ListNotations.
Open Scope Q_scope.

(** ** Executions *)
(** The parent stays on. Time does not pass the event of the period component, which takes place at its time. *)
Definition enabled (o : pop) (v : menv) (p : per) : Prop :=
  match o with
  | PTally x w => value_ok (p_m p) x /\ 0 <= w
  | PMonitor b => b = true
  | PReset mo _ => mo <> Some false
  | PClock dt => 0 <= dt /\ v_now v + dt <= p_next p
  | PZero _ => True
  | PChange => v_now v == p_next p
  end.
Inductive running (periods : list Q) (t0 : Q) : menv -> per -> Prop :=
| ru_new : forall v m h p, traced v m h -> on_of h = true -> t0 = v_now v -> new_period false periods v m = Mok p -> running periods t0 v p
| ru_op : forall v p o v' p', running periods t0 v p -> enabled o v p -> pexec periods o (v, p) = ((v', p'), Mok tt) -> running periods t0 v' p'.

(** ** Lemmas *)
Lemma mexec_now : forall o v m v' m' r, mexec o (v, m) = ((v', m'), r) -> op_ok o m -> v_now v <= v_now v' /\ ((exists e, r = Mer e) -> v_now v' = v_now v).
Proof.
  intros o v m v' m' r E OK. destruct o; cbn [mexec op_ok] in *.
  - destruct (tally x w v m). injection E as <- <- <-. split; auto. lra.
  - destruct (monitor (Some b) v m). injection E as <- <- <-. split; auto. lra.
  - destruct (reset mo so v m). injection E as <- <- <-. split; auto. lra.
  - injection E as <- <- <-. cbn. split; [lra|]. intros (e & X). discriminate.
  - injection E as <- <- <-. cbn. split; [lra|]. auto.
  - destruct (m_stats m); injection E as <- <- <-; split; auto; lra.
  - destruct (m_stats m && m_level m); [destruct (tally_add_now v m)|]; injection E as <- <- <-; split; auto; lra.
Qed.
Lemma fresh : forall v m h, traced v m h -> start_of h <= v_now v /\ (forall t x w, In (t, x, w) (seen h) -> t <= v_now v) /\
  (v_now v <= start_of h -> forall g e, integral g h e == (if on_of h then g (value_of h) * (e - v_now v) else 0)).
Proof.
  assert (K : forall (v v' : menv) h, v_now v <= v_now v' ->
    start_of h <= v_now v /\ (forall t x w, In (t, x, w) (seen h) -> t <= v_now v) /\ (v_now v <= start_of h -> forall g e, integral g h e == (if on_of h then g (value_of h) * (e - v_now v) else 0)) ->
    start_of h <= v_now v' /\ (forall t x w, In (t, x, w) (seen h) -> t <= v_now v') /\ (v_now v' <= start_of h -> forall g e, integral g h e == (if on_of h then g (value_of h) * (e - v_now v') else 0))).
  { intros v v' h L (A & A' & B). split; [lra|]. split; [intros t x w I; specialize (A' t x w I); lra|]. intros S g e. rewrite B by lra. destruct (on_of h); [|lra]. assert (v_now v == v_now v') as -> by lra. lra. }
  intros v m h T. induction T as [level ty stats on init v m C V|v m h o v' m' T IH OK E|v m h o v' m' e T IH OK E].
  - cbn [start_of starts integral on_of value_of seen]. split; [lra|]. split; [intros ? ? ? []|]. intros _ g e. destruct on; lra.
  - destruct (mexec_now _ _ _ _ _ _ E OK) as (L & _). destruct IH as (A & A' & B).
    assert (SW : forall e, starts e = false -> v_now v' = v_now v -> start_of ((v_now v, e) :: h) <= v_now v' /\
       (v_now v' <= start_of ((v_now v, e) :: h) -> forall g z, integral g ((v_now v, e) :: h) z == (if on_of ((v_now v, e) :: h) then g (value_of ((v_now v, e) :: h)) * (z - v_now v') else 0))).
    { intros e S VV. rewrite VV. cbn [start_of]. rewrite S. split; auto. intros S' g z. cbn [integral]. rewrite S. rewrite (B S' g (v_now v)). destruct (on_of h), (on_of ((v_now v, e) :: h)); lra. }
    destruct o; cbn [note_op]; try (apply (K v v'); auto; fail).
    + assert (VV : v_now v' = v_now v) by (cbn [mexec] in E; destruct (tally x w v m); injection E as <- _ _; auto). destruct (SW (HTally x w) eq_refl VV) as (S1 & S2). split; auto. split; auto.
      intros t y z I. cbn [seen] in I. rewrite VV. destruct (on_of h); [|eauto]. destruct I as [I|I]; [injection I as <- _ _; lra | eauto].
    + assert (VV : v_now v' = v_now v) by (cbn [mexec] in E; destruct (monitor (Some b) v m); injection E as <- _ _; auto). destruct (SW (HSwitch b) eq_refl VV) as (S1 & S2). split; auto. split; auto.
      intros t y z I. cbn [seen] in I. rewrite VV. eauto.
    + assert (VV : v_now v' = v_now v) by (cbn [mexec] in E; destruct (reset mo so v m); injection E as <- _ _; auto). rewrite VV. cbn [start_of starts seen integral]. split; [lra|]. split; [intros ? ? ? []|].
      intros _ g z. destruct (on_of _); lra.
  - destruct (mexec_now _ _ _ _ _ _ E OK) as (L & _). apply (K v v'); auto.
Qed.
Lemma repl_len : forall A (l : list A) i x, length (repl i x l) = length l.
Proof. induction l as [|y l IH]; intros [|i] x; cbn; auto. Qed.
Lemma repl_nth : forall A (l : list A) i x j, nth_error (repl i x l) j = if Nat.eqb j i then match nth_error l j with Some _ => Some x | None => None end else nth_error l j.
Proof.
  induction l as [|y l IH]; intros i x j.
  - replace (repl i x []) with (@nil A) by (destruct i; auto). destruct (Nat.eqb j i), j; auto.
  - destruct i, j; cbn; auto.
Qed.
(** what may be tallied in the parent may be tallied in the monitors per period *)
Lemma value_any : forall m q x, value_ok m x -> m_type q = TAny -> m_level q = m_level m -> value_ok q x.
Proof.
  intros m q x (A & B) TQ LQ. split; [rewrite TQ; auto|]. rewrite LQ. destruct (m_level m); auto. unfold m_off in *. rewrite TQ. cbn [off_of].
  destruct (m_type m) as [| |lo hi o]; auto. destruct x; auto.
Qed.
Lemma tally_tr : forall v m h x w m', traced v m h -> value_ok m x -> (m_stats m = true -> 0 <= w) -> tally x w v m = (m', Mok tt) ->
  traced v m' ((v_now v, HTally x w) :: h) /\ m_level m' = m_level m /\ m_type m' = m_type m.
Proof.
  intros v m h x w m' T V W E. split.
  - apply (tr_ok v m h (OTally x w) v m'); [auto | split; auto | cbn [mexec]; rewrite E; auto].
  - destruct (tally_inv v m h x w (traced_inv _ _ _ T) V W) as (m2 & r & E2 & _ & A & B & _). rewrite E in E2. injection E2 as <- _. auto.
Qed.
Lemma monitor_tr : forall v m h b m' r, traced v m h -> monitor (Some b) v m = (m', r) -> r = Mok tt /\ traced v m' ((v_now v, HSwitch b) :: h) /\ m_level m' = m_level m /\ m_type m' = m_type m.
Proof.
  intros v m h b m' r T E. destruct (monitor_inv v m h b (traced_inv _ _ _ T)) as (m2 & E2 & _ & A & B & _). rewrite E in E2. injection E2 as <- ->. split; auto. split; auto.
  apply (tr_ok v m h (OMonitor b) v m'); [auto | exact Logic.I | cbn [mexec]; rewrite E; auto].
Qed.
Lemma reset_tr : forall v m h mo so m' r, traced v m h -> reset mo so v m = (m', r) -> r = Mok tt /\ traced v m' ((v_now v, HReset mo) :: h) /\ m_level m' = m_level m /\ m_type m' = m_type m.
Proof.
  intros v m h mo so m' r T E. pose proof (traced_inv _ _ _ T) as I.
  assert (X : exists m2, reset mo so v m = (m2, Mok tt) /\ m_level m2 = m_level m /\ m_type m2 = m_type m).
  { destruct (start_inv v m h (HReset mo) mo so) as (m2 & E2 & _ & A & B & _); [apply (mi_gen _ _ _ I) | auto | apply (mi_val _ _ _ I) | apply (mi_ok _ _ _ I) | cbn [on_of]; rewrite (mi_on _ _ _ I); destruct mo; auto | auto|]. eauto. }
  destruct X as (m2 & E2 & A & B). rewrite E in E2. injection E2 as <- ->. split; auto. split; auto.
  apply (tr_ok v m h (OReset mo so) v m'); [auto | exact Logic.I | cbn [mexec]; rewrite E; auto].
Qed.

Section R.
Variable ps : list Q.
Variable t0 : Q.
Hypothesis Pne : ps <> [].
Hypothesis Ppos : forall d, In d ps -> 0 <= d.
Notation n := (length ps).
(** the monitors per period with their histories *)
Definition pps (v : menv) (lv : bool) (l : list mon) (hs : nat -> hist) : Prop :=
  length l = n /\ forall j q, nth_error l j = Some q -> traced v q (hs j) /\ m_level q = lv /\ m_type q = TAny.
Record INV (v : menv) (p : per) (h : hist) (hs : nat -> hist) : Prop := {
  iv_m : traced v (p_m p) h; iv_pp : pps v (m_level (p_m p)) (p_pp p) hs; iv_i : p_i p = cur_of ps (p_k p); iv_next : p_next p == begins ps t0 (p_k p);
  iv_h : PH ps t0 (v_now v) (p_k p) h hs;
  iv_l : m_level (p_m p) = true -> PL ps t0 (v_now v) (p_k p) h hs;
  iv_n : m_level (p_m p) = false -> PN ps t0 (v_now v) (p_k p) h hs }.
Lemma pps_repl : forall v lv l hs i q x, pps v lv l hs -> traced v q x -> m_level q = lv -> m_type q = TAny -> pps v lv (repl i q l) (upd i x hs).
Proof.
  intros v lv l hs i q x (A & B) T L Y. split; [rewrite repl_len; auto|]. intros j q' E. rewrite repl_nth in E. unfold upd. destruct (Nat.eqb j i); [|auto].
  destruct (nth_error l j); [|discriminate]. injection E as <-. auto.
Qed.
Lemma on_pp_ok : forall i f p p', on_pp i f p = (p', Mok tt) -> exists q q', nth_error (p_pp p) i = Some q /\ f q = (q', Mok tt) /\ p' = with_pp i q' p.
Proof.
  intros i f p p' E. unfold on_pp in E. destruct (nth_error (p_pp p) i) as [q|]; [|discriminate]. destruct (f q) as [q' r] eqn:F. injection E as <- ->. eauto.
Qed.
Lemma inv_new : forall v m h p, traced v m h -> on_of h = true -> t0 = v_now v -> new_period false ps v m = Mok p -> exists hs, INV v p h hs.
Proof.
  intros v m h p T O T0 E. unfold new_period in E. destruct (create (m_level m) TAny false false (Num 0) v) as [q [[]|]] eqn:C; [|discriminate]. injection E as <-.
  assert (TQ : traced v q [(v_now v, HMade (Num 0) false)]).
  { replace (Num 0) with (if m_level m then Num 0 else Num 0) by (destruct (m_level m); auto). eapply tr_new; [exact C|]. split; [reflexivity|]. cbn [m_level m_off m_type]. destruct (m_level m); [reflexivity | discriminate]. }
  assert (LQ : m_level q = m_level m /\ m_type q = TAny).
  { unfold create in C. destruct (start_inv v (mkMon (m_level m) TAny false false false (if m_level m then Num 0 else Num 0) (v_now v) (v_now v) [] WNo (v_now v) acc0 acc0 []) [] (HMade (Num 0) false) (Some false) None) as (m2 & E2 & _ & A & B & _).
    all: try reflexivity.
    - cbn. destruct (m_level m); auto.
    - cbn. intros ->. auto.
    - rewrite C in E2. injection E2 as <-. auto. }
  destruct (fresh _ _ _ T) as (F1 & F2 & F3).
  exists (fun _ => [(v_now v, HMade (Num 0) false)]). constructor; cbn [p_m p_pp p_i p_k p_next]; auto.
  - split; [apply repeat_length|]. intros j q' Q. apply nth_error_In, repeat_spec in Q. subst q'. destruct LQ. auto.
  - cbn. rewrite T0. lra.
  - constructor; cbn; auto; try (rewrite T0; lra). apply (mi_ne _ _ _ (traced_inv _ _ _ T)).
  - intros _. constructor.
    + intros j J X. discriminate.
    + intros j t J X. destruct (cov_0 _ _ _ _ X).
    + intros j t J X. cbn. destruct (Qle_bool (v_now v) t); auto.
    + intros g. split; [intros; cbn; lra|]. intros S e. rewrite F3, O, T0 by (rewrite <- T0; auto). lra.
  - intros _. constructor. exists []. split; [constructor; intros; rewrite T0; eauto|]. split; [intros ? [] | intros; reflexivity].
Qed.
Lemma last_time : forall v m h s e r, traced v m h -> h = (s, e) :: r -> s <= v_now v.
Proof. intros v m h s e r T E. destruct (mi_time _ _ _ (traced_inv _ _ _ T)) as (s' & e' & r' & X & Y). rewrite E in X. injection X as <- _ _. auto. Qed.
Lemma reset_all_ok : forall so v l l', reset_all so v l = (l', Mok tt) -> Forall2 (fun q q' => reset None so v q = (q', Mok tt)) l l'.
Proof.
  induction l as [|q l IH]; cbn; intros l' E; [injection E as <-; constructor|].
  destruct (reset None so v q) as [q' [[]|]] eqn:R; [|discriminate]. destruct (reset_all so v l) as [t' r] eqn:X. injection E as <- ->. constructor; auto.
Qed.
Lemma F2_nth : forall A B (R : A -> B -> Prop) l l' j y, Forall2 R l l' -> nth_error l' j = Some y -> exists x, nth_error l j = Some x /\ R x y.
Proof. intros A B R l l' j y F. revert j. induction F; intros [|j] E; cbn in *; try discriminate; eauto. injection E as <-. eauto. Qed.
Lemma pps_env : forall v v' lv l hs, (forall m h, traced v m h -> traced v' m h) -> pps v lv l hs -> pps v' lv l hs.
Proof. intros v v' lv l hs K (A & B). split; auto. intros j q E. destruct (B j q E) as (X & Y & Z). auto. Qed.
Lemma inv_op : forall v p h hs o v' p', INV v p h hs -> enabled o v p -> pexec ps o (v, p) = ((v', p'), Mok tt) -> exists h' hs', INV v' p' h' hs'.
Proof.
  intros v p h hs o v' p' [M [LEN PP] II NX H HL HN] EN E.
  assert (CL : (cur_of ps (p_k p) < n)%nat) by (apply cur_lt; auto).
  destruct o as [x w|b|mo so|dt|off|]; cbn [pexec enabled] in *.
  - (* tally *)
    unfold p_tally in E. destruct (on_pp (p_i p) (tally x w v) p) as [p1 [[]|]] eqn:O1; [|injection E as _ _ ?; discriminate].
    apply on_pp_ok in O1. destruct O1 as (q & q' & NQ & TQ & ->). destruct (tally x w v (p_m (with_pp (p_i p) q' p))) as [m' r] eqn:TM. injection E as <- <- ->.
    cbn [with_pp p_m] in TM. destruct EN as (VO & WP). destruct (PP _ _ NQ) as (TrQ & LQ & YQ).
    destruct (tally_tr _ _ _ _ _ _ TrQ (value_any _ _ _ VO YQ LQ) (fun _ => WP) TQ) as (TrQ' & LQ' & YQ').
    destruct (tally_tr _ _ _ _ _ _ M VO (fun _ => WP) TM) as (M' & LM & YM).
    exists ((v_now v, HTally x w) :: h), (upd (cur_of ps (p_k p)) ((v_now v, HTally x w) :: hs (cur_of ps (p_k p))) hs).
    constructor; cbn [with_m with_pp p_m p_pp p_i p_k p_next]; auto.
    + rewrite LM. rewrite <- II. apply pps_repl; [split; auto | auto | congruence | congruence].
    + apply ph_tally; auto.
    + intros L. apply pl_tally; auto. apply HL. congruence.
    + intros L. apply pn_tally; auto. apply HN. congruence.
  - (* monitor *)
    subst b. unfold p_monitor in E. destruct (monitor (Some true) v (p_m p)) as [m' r] eqn:TM. injection E as <- <- ->. destruct (monitor_tr _ _ _ _ _ _ M TM) as (_ & M' & LM & YM).
    exists ((v_now v, HSwitch true) :: h), hs. constructor; cbn [with_m p_m p_pp p_i p_k p_next]; auto.
    + rewrite LM. split; auto.
    + apply ph_again; auto.
    + intros L. apply pl_again; auto; [apply HL; congruence|]. intros s e r X. eapply last_time; [exact M | exact X].
    + intros L. apply pn_again; auto. apply HN. congruence.
  - (* reset *)
    unfold p_reset in E. destruct (reset_all so v (p_pp p)) as [l [[]|]] eqn:RA; [|injection E as _ _ ?; discriminate].
    destruct (reset mo so v (p_m p)) as [m' r] eqn:TM. injection E as <- <- ->. destruct (reset_tr _ _ _ _ _ _ _ M TM) as (_ & M' & LM & YM). apply reset_all_ok in RA.
    exists ((v_now v, HReset mo) :: h), (fun j => (v_now v, HReset None) :: hs j). constructor; cbn [p_m p_pp p_i p_k p_next]; auto.
    + rewrite LM. split; [rewrite <- LEN; symmetry; clear - RA; induction RA; cbn; auto|]. intros j q' X. destruct (F2_nth _ _ _ _ _ _ _ RA X) as (q & NQ & RQ).
      destruct (PP _ _ NQ) as (A & B & C). destruct (reset_tr _ _ _ _ _ _ _ A RQ) as (_ & A' & B' & C'). split; auto. split; congruence.
    + apply ph_reset; auto.
    + intros L. apply pl_reset; auto. apply HL. congruence.
    + intros L. apply pn_reset. apply HN. congruence.
  - (* clock *)
    injection E as <- <-. destruct EN as (D1 & D2). assert (K : forall m h, traced v m h -> traced (mkMenv (v_now v + dt) (v_off v)) m h).
    { intros m0 h0 T. apply (tr_ok v m0 h0 (OTick dt) _ m0); auto. }
    exists h, hs. constructor; cbn [v_now]; auto.
    + eapply pps_env; [exact K | split; auto].
    + eapply ph_clock; eauto; [lra | rewrite <- NX; auto].
    + intros L. eapply pl_clock; eauto.
    + intros L. eapply pn_clock; eauto.
  - (* reset_now *)
    injection E as <- <-. assert (K : forall m h, traced v m h -> traced (mkMenv (v_now v) off) m h).
    { intros m0 h0 T. apply (tr_ok v m0 h0 (OResetNow off) _ m0); auto. }
    exists h, hs. constructor; cbn [v_now]; auto. eapply pps_env; [exact K | split; auto].
  - (* another period *)
    assert (TK : v_now v == begins ps t0 (p_k p)) by (rewrite <- NX; auto).
    unfold p_change in E. destruct (on_pp (p_i p) (monitor (Some false) v) p) as [p1 [[]|]] eqn:O1; [|injection E as _ _ ?; discriminate].
    apply on_pp_ok in O1. destruct O1 as (q & q1 & NQ & MQ & ->). destruct (PP _ _ NQ) as (TrQ & LQ & YQ). destruct (monitor_tr _ _ _ _ _ _ TrQ MQ) as (_ & TrQ1 & LQ1 & YQ1).
    set (i := (p_k p mod n)%nat) in *. destruct (nth_error ps i) as [d|] eqn:ND; [|injection E as _ _ ?; discriminate]. cbn [with_pp p_m p_pp p_k p_next p_i] in E.
    set (h1 := upd (cur_of ps (p_k p)) ((v_now v, HSwitch false) :: hs (cur_of ps (p_k p))) hs).
    assert (P1 : pps v (m_level (p_m p)) (repl (p_i p) q1 (p_pp p)) h1).
    { unfold h1. rewrite <- II. apply pps_repl; [split; auto | auto | congruence | congruence]. }
    set (pp1 := repl (p_i p) q1 (p_pp p)) in *.
    assert (TKd : begins ps t0 (S (p_k p)) == v_now v + d).
    { cbn [begins]. fold i. rewrite (nth_error_nth _ _ _ ND). rewrite TK. lra. }
    assert (FIN : forall pp2 h2, pps v (m_level (p_m p)) pp2 h2 -> h2 = (if m_level (p_m p) then upd i ((v_now v, HTally (value_of h) 1) :: h1 i) h1 else h1) ->
      forall p4, on_pp i (monitor (Some true) v) (mkPer (p_m p) pp2 i (p_k p) (p_next p)) = (p4, Mok tt) ->
      exists h' hs', INV v (mkPer (p_m p4) (p_pp p4) i (S (p_k p4)) (v_now v + d)) h' hs').
    { intros pp2 h2 (LEN2 & P2) EH p4 O4. apply on_pp_ok in O4. destruct O4 as (r & r1 & NR & MR & ->). cbn [p_pp] in NR. destruct (P2 _ _ NR) as (TrR & LR & YR).
      destruct (monitor_tr _ _ _ _ _ _ TrR MR) as (_ & TrR1 & LR1 & YR1). exists h, (changed ps (m_level (p_m p)) (v_now v) (p_k p) h hs).
      constructor; cbn [with_pp p_m p_pp p_i p_k p_next]; auto.
      - unfold changed. fold i. fold h1. rewrite <- EH. apply pps_repl; [split; auto | auto | congruence | congruence].
      - rewrite TKd. lra.
      - apply ph_change; auto.
      - intros L. rewrite L. apply pl_change; auto. intros s e r0 X. eapply last_time; [exact M | exact X].
      - intros L. rewrite L. apply pn_change; auto. }
    destruct (m_level (p_m p)) eqn:LV.
    + unfold call in E. rewrite LV in E. cbn [negb] in E. destruct (on_pp i (tally (m_tally (p_m p)) 1 v) (mkPer (p_m p) pp1 i (p_k p) (p_next p))) as [p3 [[]|]] eqn:O3; [|injection E as _ _ ?; discriminate].
      apply on_pp_ok in O3. destruct O3 as (r & r1 & NR & TR & ->). cbn [p_pp] in NR. pose proof (traced_inv _ _ _ M) as IM. rewrite (mi_val _ _ _ IM LV) in TR.
      destruct (proj2 P1 _ _ NR) as (TrR & LR & YR). assert (VO : value_ok (p_m p) (value_of h)) by (rewrite <- (mi_val _ _ _ IM LV); destruct (mi_ok _ _ _ IM LV); split; auto; rewrite LV; auto).
      assert (VR : value_ok r (value_of h)) by (apply (value_any (p_m p)); congruence).
      assert (W1 : 0 <= 1) by lra.
      destruct (tally_tr _ _ _ _ _ _ TrR VR (fun _ => W1) TR) as (TrR1 & LR1 & YR1).
      change (with_pp i r1 (mkPer (p_m p) pp1 i (p_k p) (p_next p))) with (mkPer (p_m p) (repl i r1 pp1) i (p_k p) (p_next p)) in E.
      destruct (on_pp i (monitor (Some true) v) (mkPer (p_m p) (repl i r1 pp1) i (p_k p) (p_next p))) as [p4 [[]|]] eqn:O4; [|injection E as _ _ ?; discriminate]. injection E as <- <-.
      eapply FIN; [| reflexivity | exact O4]. apply pps_repl; auto; congruence.
    + destruct (on_pp i (monitor (Some true) v) (mkPer (p_m p) pp1 i (p_k p) (p_next p))) as [p4 [[]|]] eqn:O4; [|injection E as _ _ ?; discriminate]. injection E as <- <-.
      eapply FIN; [exact P1 | reflexivity | exact O4].
Qed.
Lemma running_inv : forall v p, running ps t0 v p -> exists h hs, INV v p h hs.
Proof. induction 1 as [v m h p T O T0 E|v p o v' p' R IH EN E]; [destruct (inv_new _ _ _ _ T O T0 E); eauto|]. destruct IH as (h & hs & I). eapply inv_op; eauto. Qed.
End R.

(** ** C68 *)
(** the periods: at least one, none with a negative duration *)
Definition good_periods (ps : list Q) : Prop := ps <> [] /\ forall d, In d ps -> 0 <= d.
(** all monitors keep full data *)
Definition full (p : per) : Prop := m_stats (p_m p) = false /\ forall q, In q (p_pp p) -> m_stats q = false.
Lemma index_pps : forall ps t0 v p h hs j q, INV ps t0 v p h hs -> nth_error (p_pp p) j = Some q -> (j < length ps)%nat /\ traced v q (hs j) /\ m_level q = m_level (p_m p).
Proof.
  intros ps t0 v p h hs j q I E. destruct (iv_pp _ _ _ _ _ _ I) as (L & P). destruct (P _ _ E) as (A & B & _). split; auto. rewrite <- L. apply nth_error_Some. congruence.
Qed.

(** There is one monitor for each of the periods. *)
Theorem C68_number : forall ps t0 v p, good_periods ps -> running ps t0 v p -> length (p_pp p) = length ps.
Proof. intros ps t0 v p (A & B) R. destruct (running_inv ps t0 A B v p R) as (h & hs & I). apply (iv_pp _ _ _ _ _ _ I). Qed.
(** Level monitors, in the past: during its periods the monitor of a period shows what the parent shows (off if that is off) ... *)
Theorem C68_level : forall ps t0 v p j q t a, good_periods ps -> running ps t0 v p -> full p -> m_level (p_m p) = true -> nth_error (p_pp p) j = Some q ->
  t + v_off v < v_now v -> begins ps t0 a <= t + v_off v < begins ps t0 (S a) -> kind ps a j ->
  call (Some t) v q = call (Some t) v (p_m p) \/ (call (Some t) v (p_m p) = Mok (m_off (p_m p)) /\ call (Some t) v q = Mok (m_off q)).
Proof.
  intros ps t0 v p j q t a (A & B) R (F1 & F2) L E LT (W1 & W2) K. destruct (running_inv ps t0 A B v p R) as (h & hs & I). destruct (index_pps _ _ _ _ _ _ _ _ I E) as (J & TQ & LQ).
  assert (NE : ~ t + v_off v == v_now v) by lra. rewrite (C37_past v q (hs j) t TQ) by (auto; try congruence; apply F2; eapply nth_error_In; eauto). rewrite (C37_past v (p_m p) h t (iv_m _ _ _ _ _ _ I)) by auto.
  assert (C : cov ps t0 (p_k p) j (t + v_off v)).
  { exists a. assert (AK : (a < p_k p)%nat).
    { destruct (le_lt_dec (p_k p) a) as [H|H]; auto. pose proof (T_mono ps t0 A B _ _ H). pose proof (ph_next _ _ _ _ _ _ (iv_h _ _ _ _ _ _ I)). lra. }
    repeat split; auto. }
  rewrite (pl_in _ _ _ _ _ _ (iv_l _ _ _ _ _ _ I L) j _ J C). destruct (level_at h (t + v_off v)); auto.
Qed.
(** ... and it is off during the others. *)
Theorem C68_level_off : forall ps t0 v p j q t a, good_periods ps -> running ps t0 v p -> full p -> m_level (p_m p) = true -> nth_error (p_pp p) j = Some q ->
  t + v_off v < v_now v -> begins ps t0 a <= t + v_off v < begins ps t0 (S a) -> ~ kind ps a j ->
  call (Some t) v q = Mok (m_off q).
Proof.
  intros ps t0 v p j q t a (A & B) R (F1 & F2) L E LT (W1 & W2) K. destruct (running_inv ps t0 A B v p R) as (h & hs & I). destruct (index_pps _ _ _ _ _ _ _ _ I E) as (J & TQ & LQ).
  assert (NE : ~ t + v_off v == v_now v) by lra. rewrite (C37_past v q (hs j) t TQ) by (auto; try congruence; apply F2; eapply nth_error_In; eauto).
  rewrite (pl_out _ _ _ _ _ _ (iv_l _ _ _ _ _ _ I L) j _ J); auto. intros (b & B1 & B2 & B3 & B4). apply K. unfold kind. rewrite <- B2. f_equal.
  assert (B5 : t + v_off v < begins ps t0 (S b)).
  { destruct (Nat.eq_dec (S b) (p_k p)) as [X|X]; [|apply B4; lia]. rewrite X. pose proof (ph_next _ _ _ _ _ _ (iv_h _ _ _ _ _ _ I)). lra. }
  destruct (lt_eq_lt_dec a b) as [[H|H]|H]; auto; exfalso.
  - pose proof (T_mono ps t0 A B (S a) b H). lra.
  - pose proof (T_mono ps t0 A B (S b) a H). lra.
Qed.
(** Before the first period all are off. *)
Theorem C68_level_before : forall ps t0 v p j q t, good_periods ps -> running ps t0 v p -> full p -> m_level (p_m p) = true -> nth_error (p_pp p) j = Some q ->
  t + v_off v < t0 -> call (Some t) v q = Mok (m_off q).
Proof.
  intros ps t0 v p j q t (A & B) R (F1 & F2) L E LT. destruct (running_inv ps t0 A B v p R) as (h & hs & I). destruct (index_pps _ _ _ _ _ _ _ _ I E) as (J & TQ & LQ).
  assert (TN : t0 <= v_now v).
  { pose proof (ph_now _ _ _ _ _ _ (iv_h _ _ _ _ _ _ I)) as X. destruct (p_k p) as [|k]; [lra|]. pose proof (T_mono ps t0 A B 0 k (Nat.le_0_l k)). cbn in H. lra. }
  assert (NE : ~ t + v_off v == v_now v) by lra. rewrite (C37_past v q (hs j) t TQ) by (auto; try congruence; apply F2; eapply nth_error_In; eauto).
  rewrite (pl_out _ _ _ _ _ _ (iv_l _ _ _ _ _ _ I L) j _ J); auto. intros (b & _ & _ & B3 & _). pose proof (T_mono ps t0 A B 0 b (Nat.le_0_l b)). cbn in H. lra.
Qed.
(** The durations of the periods add up: if the parent started (or was reset) not before the first period, its duration is the sum of those of the
    monitors per period, in total and for each set of values. *)
Definition got {A} (d : A) (r : mon * mres A) : A := match snd r with Mok x => x | Mer _ => d end.
Theorem C68_durations : forall ps t0 v p, good_periods ps -> running ps t0 v p -> full p -> m_level (p_m p) = true -> (0 < p_k p)%nat -> t0 <= m_start (p_m p) ->
  got 0 (duration false v (p_m p)) == sumQ (map (fun q => got 0 (duration false v q)) (p_pp p)) /\
  forall vs, got 0 (value_duration vs v (p_m p)) == sumQ (map (fun q => got 0 (value_duration vs v q)) (p_pp p)).
Proof.
  intros ps t0 v p (A & B) R (F1 & F2) L K S. destruct (running_inv ps t0 A B v p R) as (h & hs & I). pose proof (iv_m _ _ _ _ _ _ I) as T. destruct (iv_pp _ _ _ _ _ _ I) as (LEN & PP).
  assert (X : exists LL, (forall g, t0 <= start_of h -> LL g == 0) /\ forall g e, integral g h e == LL g + upto (length ps) (fun j => integral g (hs j) e)).
  { pose proof (pl_int _ _ _ _ _ _ (iv_l _ _ _ _ _ _ I L)) as X. destruct (p_k p); [lia|]. exact X. }
  destruct X as (LL & L0 & LE). rewrite (mi_start _ _ _ (traced_inv _ _ _ T)) in S.
  assert (SUM : forall (f : mon -> Q) g, (forall j q, nth_error (p_pp p) j = Some q -> f q == integral g (hs j) (v_now v)) -> sumQ (map f (p_pp p)) == upto (length ps) (fun j => integral g (hs j) (v_now v))).
  { intros f g H. rewrite <- LEN. clear - H. revert H. generalize (p_pp p). intros l H.
    assert (G : forall l2 l1, l = l1 ++ l2 -> sumQ (map f l2) + upto (length l1) (fun j => integral g (hs j) (v_now v)) == upto (length l) (fun j => integral g (hs j) (v_now v))).
    { induction l2 as [|q l2 IH]; intros l1 E.
      - rewrite E, app_nil_r. cbn. lra.
      - cbn [map sumQ]. rewrite <- (IH (l1 ++ [q])) by (rewrite <- app_assoc; auto). rewrite app_length, Nat.add_comm. cbn [length Nat.add upto].
        rewrite <- (H (length l1) q) by (rewrite E, nth_error_app2, Nat.sub_diag by lia; auto). lra. }
    specialize (G l [] eq_refl). cbn in G. lra. }
  split.
  - destruct (C38_duration v (p_m p) h T F1 L) as (m' & d & E & D). unfold got at 1. rewrite E. cbn [snd]. rewrite D. unfold on_time. rewrite (LE (fun _ => 1) (v_now v)), L0 by auto.
    rewrite (SUM _ (fun _ => 1)); [lra|]. intros j q N. destruct (PP j q N) as (TQ & LQ & _). destruct (C38_duration v q (hs j) TQ) as (q' & d' & E' & D'); [apply F2; eapply nth_error_In; eauto | congruence|].
    unfold got. rewrite E'. exact D'.
  - intros vs. destruct (C38_value_duration vs v (p_m p) h T F1 L) as (m' & d & E & D). unfold got at 1. rewrite E. cbn [snd]. rewrite D. rewrite (LE _ (v_now v)), L0 by auto.
    rewrite (SUM _ (fun x => if existsb (veqb x) vs then 1 else 0)); [lra|]. intros j q N. destruct (PP j q N) as (TQ & LQ & _). destruct (C38_value_duration vs v q (hs j) TQ) as (q' & d' & E' & D'); [apply F2; eapply nth_error_In; eauto | congruence|].
    unfold got. rewrite E'. exact D'.
Qed.

(** Monitors that are not level monitors: *)
(** a monitor shows these tallies (last first): times, values, weights *)
Definition shows (v : menv) (m : mon) (l : list (Q * val * Q)) : Prop :=
  m_e m = map fst l /\ exists m' ws, xweight false false v m = (m', (map (fun e => snd (fst e)) (rev l), ws)) /\ Forall2 Qeq ws (map snd (rev l)).
Lemma shows_seen : forall v m h, traced v m h -> m_stats m = false -> m_level m = false -> shows v m (seen h).
Proof.
  intros v m h T S L. split; [apply (mi_pla _ _ _ (traced_inv _ _ _ T) S L)|]. destruct (C40_weights v m h T S L) as (m' & xs & ws & E & X & W). exists m', ws. rewrite E. split.
  - rewrite X. unfold recorded. rewrite map_map. reflexivity.
  - unfold recorded in W. rewrite map_map in W. exact W.
Qed.
(** every tally since the first period has begun belongs to one period, in which it took place, and is shown with its time, value and weight by the
    monitor of that period, in order; the others do not show it *)
Theorem C68_tallies : forall ps t0 v p, good_periods ps -> running ps t0 v p -> full p -> m_level (p_m p) = false ->
  exists l ls, shows v (p_m p) l /\ numbered ps t0 ls l /\ forall j q, nth_error (p_pp p) j = Some q -> shows v q (pick (length ps) j ls l).
Proof.
  intros ps t0 v p (A & B) R (F1 & F2) L. destruct (running_inv ps t0 A B v p R) as (h & hs & I). destruct (pn_seen _ _ _ _ _ _ (iv_n _ _ _ _ _ _ I L)) as (ls & N & _ & P).
  exists (seen h), ls. split; [apply shows_seen; auto; apply I|]. split; auto. intros j q E. destruct (index_pps _ _ _ _ _ _ _ _ I E) as (J & TQ & LQ). rewrite <- P by auto.
  apply shows_seen; auto; [apply F2; eapply nth_error_In; eauto | congruence].
Qed.
(** in particular: what is tallied strictly within a period is in the monitor for it, and in no other one unless with another time *)
Theorem C68_tally_in : forall ps t0 v p a t x j q, good_periods ps -> running ps t0 v p -> full p -> m_level (p_m p) = false ->
  In (t, x) (m_e (p_m p)) -> begins ps t0 a < t < begins ps t0 (S a) -> nth_error (p_pp p) j = Some q -> (In (t, x) (m_e q) <-> kind ps a j).
Proof.
  intros ps t0 v p a t x j q G R F L IN (W1 & W2) E. destruct (C68_tallies ps t0 v p G R F L) as (l & ls & (S1 & _) & NU & PI). destruct (PI j q E) as (S2 & _). rewrite S1 in IN. rewrite S2. destruct G as (A & B).
  clear - IN W1 W2 NU A B.
  assert (IN' : forall l' : list (Q * val * Q), In (t, x) (map fst l') <-> exists w, In (t, x, w) l').
  { intros l'. rewrite in_map_iff. split; [intros ((y, w) & X & Y); cbn in X; subst y; eauto | intros (w & Y); exists (t, x, w); auto]. }
  assert (UN : forall b, begins ps t0 b <= t <= begins ps t0 (S b) -> b = a).
  { intros b (B1 & B2). destruct (lt_eq_lt_dec a b) as [[H|H]|H]; auto; exfalso.
    - pose proof (T_mono ps t0 A B (S a) b H). lra.
    - pose proof (T_mono ps t0 A B (S b) a H). lra. }
  apply IN' in IN. destruct IN as (w & IN). rewrite IN'. unfold kind. induction NU as [l H|b ls s y z l W O NU IH].
  - specialize (H _ _ _ IN). pose proof (T_mono ps t0 A B 0 a (Nat.le_0_l a)) as X. cbn in X. lra.
  - cbn [pick]. destruct IN as [IN|IN].
    + injection IN as -> -> ->. apply UN in W. subst b. destruct (Nat.eqb_spec (a mod length ps) j) as [K|K].
      * split; auto. intros _. exists w. left; auto.
      * split; [|contradiction]. intros (w' & I'). exfalso. revert I'. clear - NU UN K. revert ls NU. induction l as [|[[s y] z] l IHl]; intros ls NU I'; [destruct ls; destruct I'|].
        inversion NU as [|b ls' s' y' z' l' W O NU']; subst; [destruct I'|]. cbn [pick] in I'. destruct (Nat.eqb_spec (b mod length ps) j) as [K2|K2]; [|eauto].
        destruct I' as [I'|I']; [|eauto]. injection I' as -> -> ->. apply UN in W. congruence.
    + specialize (IH IN). destruct (Nat.eqb_spec (b mod length ps) j) as [K|K]; [|exact IH].
      split; [|intros H; destruct (proj2 IH H) as (w' & I'); exists w'; right; auto]. intros (w' & [I'|I']); [|apply IH; eauto]. injection I' as -> -> ->. apply UN in W. congruence.
Qed.

(** ** Where the code is different *)
(** In yieldless mode, the default, a PeriodMonitor cannot be made: its process is a generator. *)
Theorem C68_yieldless_refuted : forall ps v m, new_period true ps v m = Mer MValue.
Proof. reflexivity. Qed.

(** concrete executions *)
Definition enabledb (o : pop) (v : menv) (p : per) : bool :=
  match o with
  | PTally x w => value_okb (p_m p) x && Qle_bool 0 w
  | PMonitor b => b
  | PReset mo _ => match mo with Some false => false | _ => true end
  | PClock dt => Qle_bool 0 dt && Qle_bool (v_now v + dt) (p_next p)
  | PZero _ => true
  | PChange => Qeq_bool (v_now v) (p_next p)
  end.
Lemma enabledb_ok : forall o v p, enabledb o v p = true -> enabled o v p.
Proof.
  intros [x w|b|mo so|dt|off|] v p E; cbn in *; auto.
  - apply andb_true_iff in E. destruct E as (A & B). split; [apply value_okb_ok; auto | apply Qle_bool_iff; auto].
  - destruct mo as [[]|]; congruence.
  - apply andb_true_iff in E. rewrite !Qle_bool_iff in E. auto.
  - apply Qeqb_true. auto.
Qed.
Fixpoint prun (ps : list Q) (ops : list pop) (s : menv * per) : option (menv * per) :=
  match ops with
  | [] => Some s
  | o :: r => if enabledb o (fst s) (snd s) then match pexec ps o s with (s', Mok _) => prun ps r s' | _ => None end else None
  end.
Lemma prun_running : forall ps t0 ops v p v' p', running ps t0 v p -> prun ps ops (v, p) = Some (v', p') -> running ps t0 v' p'.
Proof.
  induction ops as [|o r IH]; intros v p v' p' R E; cbn [prun fst snd] in E; [injection E as <- <-; auto|]. destruct (enabledb o v p) eqn:EN; [|discriminate].
  destruct (pexec ps o (v, p)) as [[v1 p1] [[]|]] eqn:X; [|discriminate]. eapply IH; [|exact E]. eapply ru_op; eauto. apply enabledb_ok; auto.
Qed.
(** a new monitor, a PeriodMonitor for it, and what happens then; time starts at 0 *)
Definition pstory (level : bool) (init : val) (ps : list Q) (ops : list pop) : option (menv * per) :=
  match story level TAny false true init [] with
  | Some (v, m, _) => match new_period false ps v m with Mok p => prun ps ops (v, p) | _ => None end
  | None => None
  end.
Lemma pstory_running : forall level init ps ops v p, pstory level init ps ops = Some (v, p) -> running ps 0 v p.
Proof.
  intros level init ps ops v p E. unfold pstory in E. destruct (story level TAny false true init []) as [[[v0 m] h]|] eqn:S; [|discriminate]. destruct (new_period false ps v0 m) as [p0|] eqn:N; [|discriminate].
  eapply prun_running; [|exact E]. eapply ru_new; [eapply story_traced; eauto | | | exact N].
  - unfold story, mstart in S. destruct (value_okb _ _); [|discriminate]. destruct (create level TAny false true init (mkMenv 0 0)) as [m0 [[]|]]; [|discriminate]. injection S as _ _ <-. reflexivity.
  - unfold story, mstart in S. destruct (value_okb _ _); [|discriminate]. destruct (create level TAny false true init (mkMenv 0 0)) as [m0 [[]|]]; [|discriminate]. injection S as <- _ _. reflexivity.
Qed.
Definition pafter (s : option (menv * per)) : menv * per := match s with Some x => x | None => (mkMenv 0 0, mkPer (sm None) [] 0 0 0) end.
Lemma pafter_running : forall level init ps ops, (match pstory level init ps ops with Some _ => true | None => false end) = true ->
  running ps 0 (fst (pafter (pstory level init ps ops))) (snd (pafter (pstory level init ps ops))).
Proof. intros level init ps ops E. destruct (pstory level init ps ops) as [[v p]|] eqn:X; [|discriminate]. cbn. eapply pstory_running; eauto. Qed.

(** What is tallied after a PeriodMonitor was made and before its component has become current for the first time is in no period. *)
Definition early := pstory false (Num 0) [2; 3] [PTally (Num 5) 1; PChange; PClock 1].
Theorem C68_early_tally_refuted : exists ps t0 v p, good_periods ps /\ running ps t0 v p /\ full p /\ m_level (p_m p) = false /\
  m_e (p_m p) = [(t0, Num 5)] /\ begins ps t0 0 <= t0 < begins ps t0 1 /\ forall q, In q (p_pp p) -> m_e q = [].
Proof.
  exists [2; 3], 0, (fst (pafter early)), (snd (pafter early)). split; [split; [discriminate|]; intros d [<-|[<-|[]]]; lra|]. split; [apply pafter_running; vm_compute; reflexivity|].
  split; [split; [vm_compute; reflexivity|]|].
  - assert (X : forallb (fun q => negb (m_stats q)) (p_pp (snd (pafter early))) = true) by (vm_compute; reflexivity). rewrite forallb_forall in X. intros q I. specialize (X q I). clear I. apply negb_true_iff in X. exact X.
  - split; [vm_compute; reflexivity|]. split; [vm_compute; reflexivity|]. split; [cbn; lra|].
    assert (X : forallb (fun q => match m_e q with [] => true | _ => false end) (p_pp (snd (pafter early))) = true) by (vm_compute; reflexivity). rewrite forallb_forall in X. intros q I. specialize (X q I). clear I. destruct (m_e q); [reflexivity | discriminate X].
Qed.
(** When the parent is turned off, its monitors per period stay on. *)
Definition turned_off : option (menv * per) :=
  match pstory true (Num 3) [2; 3] [PChange; PClock 1] with Some s => match pexec [2; 3] (PMonitor false) s with (s', Mok _) => prun [2; 3] [PTally (Num 7) 1; PClock 1] s' | _ => None end | None => None end.
Theorem C68_off_refuted : let s := pafter turned_off in v_now (fst s) == 2 /\ call (Some (3 # 2)) (fst s) (p_m (snd s)) = Mok NegInf /\
  map (call (Some (3 # 2)) (fst s)) (p_pp (snd s)) = [Mok (Num 7); Mok NegInf].
Proof. repeat split; vm_compute; reflexivity. Qed.

(** ** Concrete cases *)
(** a level monitor, periods of 2 and 3, through the second cycle; reset_now in between *)
Definition case_level := pstory true (Num 3) [2; 3] [PTally (Num 4) 1; PChange; PClock 1; PTally (Num 5) 1; PClock 1; PChange; PClock (1 # 2); PZero 1; PTally (Num 6) 1; PClock (5 # 2); PChange; PClock 1; PTally (Num 8) 1; PClock 1].
Example C68_case_level : let s := pafter case_level in good_periods [2; 3] /\ running [2; 3] 0 (fst s) (snd s) /\ m_level (p_m (snd s)) = true /\ p_k (snd s) = 3%nat /\ m_start (p_m (snd s)) == 0 /\
  (forallb (fun q => negb (m_stats q)) (p_m (snd s) :: p_pp (snd s))) = true /\ v_now (fst s) == 7 /\
  map (fun t => map (call (Some t) (fst s)) (p_m (snd s) :: p_pp (snd s))) [-(1); 0; 1; 2; 4; 5] =
  [[Mok (Num 4); Mok (Num 4); Mok NegInf]; [Mok (Num 5); Mok (Num 5); Mok NegInf]; [Mok (Num 5); Mok NegInf; Mok (Num 5)]; [Mok (Num 6); Mok NegInf; Mok (Num 6)]; [Mok (Num 6); Mok (Num 6); Mok NegInf]; [Mok (Num 8); Mok (Num 8); Mok NegInf]] /\
  map (fun q => Qred (got 0 (duration false (fst s) q))) (p_m (snd s) :: p_pp (snd s)) = [7; 4; 3].
Proof.
  cbv zeta. split; [split; [discriminate|]; intros d [<-|[<-|[]]]; lra|]. split; [apply pafter_running; vm_compute; reflexivity|]. repeat (split; [vm_compute; reflexivity|]). vm_compute. reflexivity.
Qed.
(** tallies with weights *)
Definition case_tallies := pstory false (Num 0) [2; 3] [PChange; PClock 1; PTally (Num 5) 1; PClock 1; PTally (Num 9) 2; PChange; PTally (Num 6) 1; PClock (1 # 2); PTally (Num 7) 3; PClock (5 # 2); PChange; PClock 1; PTally (Num 8) 1].
Example C68_case_tallies : let s := pafter case_tallies in running [2; 3] 0 (fst s) (snd s) /\ m_level (p_m (snd s)) = false /\ (forallb (fun q => negb (m_stats q)) (p_m (snd s) :: p_pp (snd s))) = true /\
  map (fun q => map snd (m_e q)) (p_m (snd s) :: p_pp (snd s)) = [[Num 8; Num 7; Num 6; Num 9; Num 5]; [Num 8; Num 9; Num 5]; [Num 7; Num 6]].
Proof. cbv zeta. split; [apply pafter_running; vm_compute; reflexivity|]. repeat (split; [vm_compute; reflexivity|]). vm_compute. reflexivity. Qed.

Print Assumptions C68_level.
Print Assumptions C68_level_off.
Print Assumptions C68_durations.
Print Assumptions C68_tallies.
Print Assumptions C68_tally_in.
