(** Properties C18-C23 and C60: who is woken up when resources become available. *)
From Coq Require Import QArith Lqa List Bool Arith ZArith Lia.
From Verif Require Import Base Kernel Wp KernelE KernelL KernelX KernelT KernelU KernelR KernelQ KernelS KernelI KernelP KernelO KernelA KernelB KernelC KernelD KernelF KernelG KernelV KernelW PropRes PropReq.
Import ListNotations.
Open Scope Q_scope.

(** a call made in s as the executions [reach_k] make it: no request is made on behalf of an interrupted component *)
Definition callk (s : env) (o : op) (s' : env) : Prop :=
  wf s o /\ lively s o /\ exists n r, exec n o s = (s', r) /\ forall e, r = Er e -> caught o e /\ calm o /\ still_op o = true.
Lemma callk_reach : forall s o s', reach_k s -> callk s o s' -> reach_k s'.
Proof.
  intros s o s' (t0 & R & sv & kc & hp & y & d & F & H) (W & L & n & r & E & C). exists t0, R, sv, kc, hp, y, d. split; auto. eapply rk_step; eauto.
Qed.

(** ** C18 *)
(** q (negative: a put) can be taken from resource r *)
Definition room (s : env) (r : nat) (q : Q) : Prop :=
  let R := rsc s r in
  if Qltb 0 q then xle (Fin (r_claimed R + q)) (xaddq (r_cap R) eps) else - eps <= r_claimed R + q.
(** the complete request of c could be honored *)
Definition can_have (s : env) (c : nat) : Prop :=
  let rq := c_requests (comps s c) in
  if c_oneof (comps s c) then exists r q, In (r, q) rq /\ room s r q else forall r q, In (r, q) rq -> room s r q.
Definition ordinary (s : env) (r : nat) : Prop :=
  r_preempt (rsc s r) = false /\ r_hfirst (rsc s r) = false /\ r_hprio (rsc s r) = false /\ (yl s = true -> r_anon (rsc s r) = false).
Lemma ordinary_exc : forall s r, ordinary s r <-> exc s r = false.
Proof.
  intros s r. unfold ordinary, exc. destruct (r_preempt _), (r_hfirst _), (r_hprio _), (yl s), (r_anon _); cbn; intuition discriminate.
Qed.
Lemma room_enough : forall s r q, room s r q <-> enough (rsc s r) q = true.
Proof.
  intros s r q. unfold room, enough, avail. cbv zeta. destruct (Qltb 0 q).
  - rewrite negb_true_iff, xltb_false_iff. destruct (r_cap (rsc s r)); cbn; [|tauto]. split; intros; lra.
  - rewrite negb_true_iff, Qltb_false_iff. split; intros; lra.
Qed.
(** whenever no call is in progress, no component is waiting for ordinary resources (anonymous or not) while its complete
    request could be honored *)
Theorem C18_no_lost_wakeup : forall s c, reach_k s -> c_status (comps s c) = Requesting -> c_requests (comps s c) <> [] ->
  (forall r q, In (r, q) (c_requests (comps s c)) -> ordinary s r) -> ~ can_have s c.
Proof.
  intros s c R ST NE OR CH. destruct (reach_k_Rest s R) as (_ & S & _). destruct (S c (conj ST NE)) as (B1 & B2).
  assert (CO : forall r q, In (r, q) (c_requests (comps s c)) -> can_one s c r q = enough (rsc s r) q).
  { intros r q I. apply can_plain, ordinary_exc. eauto. }
  assert (NX : forall r q, In (r, q) (c_requests (comps s c)) -> Ex s c r -> False).
  { intros r q I X. unfold Ex in X. apply OR in I. apply ordinary_exc in I. congruence. }
  unfold can_have in CH. cbv zeta in CH. destruct (c_oneof (comps s c)).
  - destruct CH as (r & q & I & K). destruct (B1 eq_refl r q I) as (D & _); [rewrite CO; auto; apply room_enough; auto | eauto].
  - destruct (B2 eq_refl) as (r & q & I & D & _); [intros r q I; rewrite CO; auto; apply room_enough; auto | eauto].
Qed.

(** ** C20 *)
(** d, if it waits, is not itself the subject of the call *)
Definition untouched (s : env) (o : op) (d : nat) : Prop := ~ directed d s o /\ ~ handled s o d.
(** c1 stands before c2 in the line for r *)
Definition in_front (s : env) (r c1 c2 : nat) : Prop := before c1 c2 (qs s (QReq r)).
(** d still waits for the same *)
Definition same_wait (d : nat) (s s' : env) : Prop :=
  c_requests (comps s' d) = c_requests (comps s d) /\ c_status (comps s' d) = c_status (comps s d) /\ c_oneof (comps s' d) = c_oneof (comps s d).
Lemma same_wait_trans : forall d a b c, same_wait d a b -> same_wait d b c -> same_wait d a c.
Proof. intros d a b c (A & B & C) (D & E & F). repeat split; congruence. Qed.

Lemma before_filter : forall a b f l, NoDup (map fst l) -> before a b l -> In a (map fst (filter f l)) -> In b (map fst (filter f l)) -> before a b (filter f l).
Proof.
  intros a b f l N (l1 & l2 & -> & A & B) FA FB. exists (filter f l1), (filter f l2). rewrite filter_app in *. split; auto.
  rewrite map_app in *. apply in_app_or in FA. apply in_app_or in FB.
  assert (SUB : forall x l, In x (map fst (filter f l)) -> In x (map fst l)).
  { intros x l I. apply in_map_iff in I. destruct I as (y & <- & I). apply filter_In in I. apply in_map, I. }
  assert (DJ : forall x, In x (map fst l1) -> In x (map fst l2) -> False).
  { intros x I1 I2. clear - N I1 I2. induction (map fst l1) as [|z t IH]; cbn in *; [auto|]. inversion N; subst. destruct I1 as [->|I1]; auto.
    apply H1. apply in_or_app. auto. }
  split; [destruct FA as [|FA]; auto; exfalso; eauto | destruct FB as [FB|]; auto; exfalso; eauto].
Qed.
Lemma before_ins_tail : forall a b c p l, before a b l -> before a b (ins_tail c p l).
Proof.
  intros a b c p l (l1 & l2 & -> & A & B). induction l1 as [|y t IH]; [destruct A|].
  cbn [app ins_tail]. destruct (forallb _ _); [exists ((c, p) :: y :: t), l2; cbn; auto|].
  destruct A as [A|A].
  - exists [y], (ins_tail c p (t ++ l2)). repeat split; [cbn; auto|]. clear - B.
    assert (I : In b (map fst (t ++ l2))) by (rewrite map_app; apply in_or_app; auto). clear B. revert I. generalize (t ++ l2). clear t l2.
    induction l as [|z u IH]; cbn [ins_tail]; [intros []|]. intros I. destruct (forallb _ _); [right; auto|]. destruct I as [I|I]; [left; auto | right; auto].
  - destruct (IH A) as (m1 & m2 & E & A1 & B1). exists (y :: m1), m2. rewrite E. repeat split; auto. right; auto.
Qed.
Lemma before_ins : forall a b c p l, before a b l -> before a b (ins_sorted c p l).
Proof.
  intros a b c p l H. unfold ins_sorted. destruct l as [|y t]; [destruct H as ([|] & ? & ? & [] & _); discriminate|].
  destruct (xltb p (snd y)); [|apply before_ins_tail; auto]. destruct H as (l1 & l2 & E & A & B). exists ((c, p) :: l1), l2.
  rewrite E. repeat split; auto. right; auto.
Qed.

(** requests only disappear, but for those of the components that ask *)
Lemma req_step : forall l s s' c, lstep l s s' -> (forall r q, l <> LAsk c r q) ->
  c_requests (comps s' c) = c_requests (comps s c) \/ c_requests (comps s' c) = [].
Proof.
  intros l s s' c H N. destruct l; cbn in H.
  - apply (qt_rq _ _ H).
  - assert (E : c <> c0) by (intros ->; eapply N; eauto). left.
    destruct H as (_ & [(_ & ->)|(_ & p & ->)]); unfold asked, m_q; cbn [comps s_qs]; rewrite comps_diff; auto.
  - destruct H as (_ & _ & s1 & T & ->). destruct (Nat.eq_dec c c0) as [->|E]; [rewrite comps_same; auto | rewrite comps_diff by auto; left].
    rewrite (tk_oth _ _ _ _ _ T); auto.
  - destruct H as (_ & _ & _ & G). left. destruct (Nat.eq_dec c c0) as [->|E]; [destruct (gv_self _ _ _ _ _ _ G) as (cl & -> & _); auto | rewrite (gv_oth _ _ _ _ _ _ G); auto].
  - destruct H as (_ & -> & _). auto.
  - destruct H as (-> & _). auto.
Qed.
Lemma req_seg : forall (Hd : nat -> Prop) s s' c, ~ Hd c -> rpath (segl Hd) s s' -> c_requests (comps s' c) = c_requests (comps s c) \/ c_requests (comps s' c) = [].
Proof.
  intros Hd s s' c N H. induction H as [|l s s1 s2 L G H G1 R IH]; auto.
  destruct (req_step _ _ _ c H) as [E|E]; [intros r q ->; exact (N L) | |]; destruct IH as [K|K]; auto; [left|right]; congruence.
Qed.
Lemma in_keys : forall A (l l' : list (nat * A)) r, l = l' -> In r (keys l) -> In r (keys l'). Proof. intros; subst; auto. Qed.
(** the order of two that go on waiting is kept *)
Lemma front_step : forall l s s' r c1 c2, lstep l s s' -> (forall c x q, l = LAsk c x q -> c <> c1 /\ c <> c2) -> GI none s -> GI none s' ->
  In r (keys (c_requests (comps s' c1))) -> In r (keys (c_requests (comps s' c2))) -> in_front s r c1 c2 -> in_front s' r c1 c2.
Proof.
  intros l s s' r c1 c2 H N G G' I1 I2 B. apply (GI_mem_req _ _ _ G') in I1. apply (GI_mem_req _ _ _ G') in I2.
  unfold in_front, mem in *. destruct l; cbn in H.
  - destruct (qt_req _ _ H r) as (f & E). rewrite E in *. apply before_filter; auto. apply (gi_nd _ _ G).
  - destruct H as (_ & [(_ & ->)|(_ & p & ->)]); [exact B|]. rewrite qs_m_q. destruct (qeqb _ _) eqn:Q; [|exact B].
    apply qeqb_iff in Q. injection Q as ->. apply before_ins; auto.
  - destruct H as (_ & _ & s1 & T & ->). cbn [qs m_comp] in *. change (qs (m_comp c (w_requests []) s1)) with (qs s1) in *.
    rewrite (tk_req _ _ _ _ _ T) in *. destruct (memb _ _); [|exact B]. unfold adel in *. apply before_filter; auto. apply (gi_nd _ _ G).
  - destruct H as (_ & _ & _ & V). rewrite (gv_q _ _ _ _ _ _ V) in *. exact B.
  - destruct H as (_ & -> & _). exact B.
  - destruct H as (-> & _). exact B.
Qed.
Lemma front_seg : forall (Hd : nat -> Prop) s s' r c1 c2, ~ Hd c1 -> ~ Hd c2 -> rpath (segl Hd) s s' -> GI none s' ->
  In r (keys (c_requests (comps s' c1))) -> In r (keys (c_requests (comps s' c2))) -> in_front s r c1 c2 -> in_front s' r c1 c2.
Proof.
  intros Hd s s' r c1 c2 N1 N2 H. induction H as [|l s s1 s2 L G H G1 R IH]; intros G2 I1 I2 B; auto.
  apply IH; auto. eapply front_step; eauto.
  - intros c x q ->. cbn in L. split; intros ->; contradiction.
  - destruct (req_seg Hd s1 s2 c1 N1 R) as [E|E]; rewrite E in I1; [auto | destruct I1].
  - destruct (req_seg Hd s1 s2 c2 N2 R) as [E|E]; rewrite E in I2; [auto | destruct I2].
Qed.

(** the two still wait in the same order, or the first does not wait any more *)
Definition kept (r c1 c2 : nat) (s s' : env) : Prop :=
  kind (rsc s' r) = kind (rsc s r) /\
  ((same_wait c1 s s' /\ same_wait c2 s s' /\ in_front s' r c1 c2) \/ c_requests (comps s' c1) = []).

Lemma kind_seg : forall P s s' r, rpath P s s' -> kind (rsc s' r) = kind (rsc s r).
Proof. induction 1; auto. rewrite IHrpath. eapply lstep_kind; eauto. Qed.
Lemma kept_nil : forall (Hd : nat -> Prop) s s' c, ~ Hd c -> fpath Hd anyl s s' -> c_requests (comps s c) = [] -> c_requests (comps s' c) = [].
Proof.
  intros Hd s s' c N H. induction H as [|s s1 s2 L G R K G1 F IH|l s s1 s2 L G H FA QB NA G1 F IH]; intros E; auto; apply IH.
  - rewrite (proj1 (K c N)). auto.
  - destruct (req_step _ _ _ c H); [auto | congruence | auto].
Qed.
Lemma kept_path : forall (Hd : nat -> Prop) r c1 c2 s s', ~ Hd c1 -> ~ Hd c2 -> fpath Hd anyl s s' -> in_front s r c1 c2 ->
  In r (keys (c_requests (comps s c1))) -> In r (keys (c_requests (comps s c2))) ->
  (forall t, kind (rsc t r) = kind (rsc s r) -> same_wait c1 s t -> same_wait c2 s t -> in_front t r c1 c2 -> GI none t -> grant t c2 <> [] -> fair t c2 -> False) ->
  kept r c1 c2 s s'.
Proof.
  intros Hd r c1 c2 s s' N1 N2 F. induction F as [s|s s1 s2 L G R K G1 F IH|l s s1 s2 L G H FA QB NA G1 F IH]; intros B I1 I2 NO.
  { split; auto. left. repeat split; auto. }
  - assert (S1 : same_wait c1 s s1). { destruct (K c1 N1) as (K1 & K2). destruct K2; [intros Z; rewrite Z in I1; destruct I1|]. repeat split; auto. }
    assert (S2 : same_wait c2 s s1). { destruct (K c2 N2) as (K1 & K2). destruct K2; [intros Z; rewrite Z in I2; destruct I2|]. repeat split; auto. }
    assert (J1 : In r (keys (c_requests (comps s1 c1)))) by (rewrite (proj1 S1); auto).
    assert (J2 : In r (keys (c_requests (comps s1 c2)))) by (rewrite (proj1 S2); auto).
    pose proof (kind_seg _ _ _ r R) as KD.
    destruct IH as (D & [(W1 & W2 & W3)|W]); auto.
    + eapply front_seg; eauto.
    + intros t E A1 A2. apply NO; [congruence | eapply same_wait_trans; eauto | eapply same_wait_trans; eauto].
    + split; [congruence|]. left. repeat split; try (eapply same_wait_trans; eauto); auto.
    + split; [congruence|]. auto.
  - pose proof (lstep_kind _ _ _ r H) as KD.
    assert (NG : (exists c, l = LGrant c /\ (c = c1 \/ c = c2)) \/ (forall c, l = LGrant c -> c <> c1 /\ c <> c2)).
    { destruct l; try (right; discriminate). destruct (Nat.eq_dec c c1); [left; eauto|]. destruct (Nat.eq_dec c c2); [left; eauto|]. right. intros d E. injection E as <-. auto. }
    destruct NG as [(c & -> & [->| ->])|NG].
    + assert (E : c_requests (comps s1 c1) = []). { destruct H as (_ & _ & s0 & T & ->). rewrite comps_same. auto. }
      pose proof (kept_nil _ _ _ _ N1 F E) as E2. split; auto. clear IH.
      assert (KS : kind (rsc s2 r) = kind (rsc s1 r)).
      { clear - F. induction F as [s|s s1 s2 L G R K G1 F IH|l s s1 s2 L G H FA QB NA G1 F IH]; auto; rewrite IH; [eapply kind_seg | eapply lstep_kind]; eauto. }
      congruence.
    + exfalso. apply (NO s); auto; [repeat split; auto | repeat split; auto | apply H].
    + assert (SW : forall c, ~ Hd c -> (forall d, l = LGrant d -> d <> c) -> c_requests (comps s c) <> [] -> same_wait c s s1).
      { intros c NH NC NE. destruct l; cbn in H.
        - destruct (QB _ eq_refl c NH) as (K1 & K2). destruct (K2 NE). repeat split; auto.
        - exfalso. eapply NA; eauto.
        - destruct H as (_ & _ & s0 & T & ->). specialize (NC _ eq_refl). unfold same_wait. rewrite comps_diff by auto. rewrite (tk_oth _ _ _ _ _ T); auto.
        - destruct H as (_ & _ & _ & V). destruct (Nat.eq_dec c c0) as [->|E].
          + destruct (gv_self _ _ _ _ _ _ V) as (cl & E & _). unfold same_wait. rewrite E. auto.
          + unfold same_wait. rewrite (gv_oth _ _ _ _ _ _ V); auto.
        - destruct H as (_ & -> & _). repeat split.
        - destruct H as (-> & _). repeat split. }
      assert (S1 : same_wait c1 s s1). { apply SW; auto; [intros d E; apply (NG d E) | intros Z; rewrite Z in I1; destruct I1]. }
      assert (S2 : same_wait c2 s s1). { apply SW; auto; [intros d E; apply (NG d E) | intros Z; rewrite Z in I2; destruct I2]. }
      assert (J1 : In r (keys (c_requests (comps s1 c1)))) by (rewrite (proj1 S1); auto).
      assert (J2 : In r (keys (c_requests (comps s1 c2)))) by (rewrite (proj1 S2); auto).
      destruct IH as (D & [(W1 & W2 & W3)|W]); auto.
      * eapply front_step; eauto. intros c x q ->. exfalso. eapply NA; eauto.
      * intros t E A1 A2. apply NO; [congruence | eapply same_wait_trans; eauto | eapply same_wait_trans; eauto].
      * split; [congruence|]. left. repeat split; try (eapply same_wait_trans; eauto); auto.
      * split; [congruence|]. auto.
Qed.

Lemma keep_wait : forall x s s', keep x s s' -> same_wait x s s'.
Proof. intros x s s' (K & _). assert (E : forall A (f : comp -> A), f (w_claims [] (comps s' x)) = f (w_claims [] (comps s x))) by congruence. repeat split; [apply (E _ c_requests) | apply (E _ c_status) | apply (E _ c_oneof)]. Qed.
Lemma front_waits : forall s r c1 c2, GI none s -> in_front s r c1 c2 -> In r (keys (c_requests (comps s c1))) /\ In r (keys (c_requests (comps s c2))).
Proof.
  intros s r c1 c2 G (l1 & l2 & E & A & B).
  assert (M : forall c, In c (map fst (qs s (QReq r))) -> In r (keys (c_requests (comps s c)))).
  { intros c I. apply (gi_mem _ _ G (QReq r) c eq_refl) in I. apply I. }
  split; apply M; rewrite E, map_app; apply in_or_app; auto.
Qed.
Lemma kept_call : forall s o s' r c1 c2, reach_k s -> callk s o s' -> untouched s o c1 -> untouched s o c2 -> in_front s r c1 c2 ->
  (forall t, kind (rsc t r) = kind (rsc s r) -> same_wait c1 s t -> same_wait c2 s t -> in_front t r c1 c2 -> GI none t -> grant t c2 <> [] -> fair t c2 -> False) ->
  kept r c1 c2 s s'.
Proof.
  intros s o s' r c1 c2 R (W & L & n & x & E & C) (U1 & U2) (V1 & V2) B NO.
  pose proof (reach_p_QI _ _ (reach_k_p _ R)) as QS. pose proof (qi_g _ QS) as G. destruct (front_waits _ _ _ _ G B) as (I1 & I2).
  destruct (still_op o) eqn:SO.
  - assert (KP : forall c, In r (keys (c_requests (comps s c))) -> ~ directed c s o -> same_wait c s s').
    { intros c I D. apply keep_wait.
      assert (N : NQm MStill c s). { apply one_NQm; auto; [eapply reach_p_one, reach_k_p; eauto|]. intros Z. change (keys (c_requests (comps s c)) = []) in Z. rewrite Z in I. destruct I. }
      pose proof (v_still c MStill n o s ltac:(discriminate) SO N D) as K. unfold wp in K. rewrite E in K. destruct x; destruct K as (_ & [K|[]]); auto. }
    pose proof (qt_exec n o SO s) as Q. rewrite E in Q. cbn in Q.
    assert (G' : GI none s') by (apply (QI_exec n o s s' x); auto; intros e Z; destruct (C e Z) as (C1 & C2 & _); auto).
    pose proof (KP _ I1 U1) as K1. pose proof (KP _ I2 V1) as K2.
    split; [apply plain_kind, (qt_rsc _ _ Q)|]. left. repeat split; try apply K1; try apply K2.
    apply (front_step (LQuiet None) s); auto; [discriminate | rewrite (proj1 K1); auto | rewrite (proj1 K2); auto].
  - rewrite <- SO in C. destruct (Post_exec n o s s' x QS (reach_k_Rest _ R) W L E C) as (_ & F). apply (kept_path (handled s o)); auto.
Qed.
(** calls made as long as c1 is waiting, of which neither c1 nor c2 is the subject *)
Inductive while_waiting (c1 c2 : nat) : env -> env -> Prop :=
| ww_nil : forall s, while_waiting c1 c2 s s
| ww_step : forall s s1 o s2, while_waiting c1 c2 s s1 -> c_requests (comps s1 c1) <> [] -> callk s1 o s2 -> untouched s1 o c1 -> untouched s1 o c2 ->
    while_waiting c1 c2 s s2.
Lemma ww_reach : forall c1 c2 s s', while_waiting c1 c2 s s' -> reach_k s -> reach_k s'.
Proof. induction 1 as [|s s1 o s2 H IH NE K U1 U2]; intros; auto. apply (callk_reach s1 o s2); auto. Qed.
Lemma kept_all : forall r c1 c2 s s', while_waiting c1 c2 s s' -> reach_k s -> in_front s r c1 c2 ->
  (forall t, kind (rsc t r) = kind (rsc s r) -> same_wait c1 s t -> same_wait c2 s t -> in_front t r c1 c2 -> GI none t -> grant t c2 <> [] -> fair t c2 -> False) ->
  kept r c1 c2 s s'.
Proof.
  intros r c1 c2 s s' H R B NO. induction H as [s|s s1 o s2 H IH NE K U1 U2]; [split; auto; left; repeat split; auto|].
  destruct (IH R B NO) as (KD & [(W1 & W2 & W3)|W]); [|contradiction].
  destruct (kept_call s1 o s2 r c1 c2 (ww_reach _ _ _ _ H R) K U1 U2 W3) as (KD' & [(X1 & X2 & X3)|X]).
  - intros t E A1 A2. apply NO; [congruence | eapply same_wait_trans; eauto | eapply same_wait_trans; eauto].
  - split; [congruence|]. left. repeat split; auto; eapply same_wait_trans; eauto.
  - split; [congruence | auto].
Qed.
(** of two components that wait for the same resource only, the one in front, which asks no more, is not honored later *)
Theorem C20_not_overtaken : forall s s' r c1 c2 q1 q2, reach_k s -> ordinary s r -> r_anon (rsc s r) = false ->
  c_status (comps s c1) = Requesting -> c_requests (comps s c1) = [(r, q1)] -> c_requests (comps s c2) = [(r, q2)] -> q1 <= q2 ->
  in_front s r c1 c2 -> while_waiting c1 c2 s s' -> c_requests (comps s' c2) = [] -> c_requests (comps s' c1) = [].
Proof.
  intros s s' r c1 c2 q1 q2 R O A S1 R1 R2 LE B H E. apply ordinary_exc in O.
  destruct (kept_all r c1 c2 s s' H R B) as (_ & [(_ & (K & _) & _)|K]); auto; [|congruence].
  intros t KD (T1 & T2 & _) (T3 & _) F _ _ FR. apply (FR c1 r q2 q1); auto; try congruence.
  - split; congruence.
  - unfold exc in *. injection KD as K1 K2 K3 K4. rewrite K1, K2, K3, K4. rewrite A in *. rewrite andb_false_r in *. auto.
  - injection KD as K1 _ _ _. congruence.
Qed.
(** with honor_only_first: not as long as anybody is in front *)
Lemma grant_head : forall s r c, r_hfirst (rsc s r) = true -> In r (keys (c_requests (comps s c))) -> c_oneof (comps s c) = false -> grant s c <> [] ->
  exists p l, qs s (QReq r) = (c, p) :: l.
Proof.
  intros s r c HF I O GR. unfold grant in GR. rewrite O in GR. destruct (forallb _ _) eqn:F; [|congruence]. rewrite forallb_forall in F.
  unfold keys in I. apply in_map_iff in I. destruct I as ((r', q) & <- & I). specialize (F _ I). cbn in *. unfold can_one, allowed in F. rewrite HF in F. cbn in F.
  destruct (qs s (QReq r')) as [|(h, p) l]; [discriminate|]. apply andb_true_iff in F. destruct F as (F & _). apply andb_true_iff in F. destruct F as (F & _).
  apply Nat.eqb_eq in F. subst. eauto.
Qed.
Lemma before_head : forall a b p l, NoDup (map fst ((b, p) :: l)) -> before a b ((b, p) :: l) -> False.
Proof.
  intros a b p l N (l1 & l2 & E & A & B). destruct l1 as [|(z, pz) t]; [destruct A|]. cbn in E. injection E as <- <- ->. cbn in N. inversion N as [|? ? N1 _].
  apply N1. rewrite map_app. apply in_or_app. auto.
Qed.
Theorem C20_first_only : forall s s' r c1 c2, reach_k s -> r_hfirst (rsc s r) = true -> c_oneof (comps s c2) = false ->
  in_front s r c1 c2 -> while_waiting c1 c2 s s' -> c_requests (comps s' c2) = [] -> c_requests (comps s' c1) = [].
Proof.
  intros s s' r c1 c2 R HF ONE B H E. pose proof (qi_g _ (reach_p_QI _ _ (reach_k_p _ R))) as G. destruct (front_waits _ _ _ _ G B) as (I1 & I2).
  destruct (kept_all r c1 c2 s s' H R B) as (_ & [(_ & (K & _) & _)|K]); auto; [|rewrite <- K, E in I2; destruct I2].
  intros t KD _ (T1 & _ & T2) F G' GR _.
  destruct (grant_head t r c2) as (p & l & EQ); auto; [injection KD as _ _ K _; congruence | rewrite T1; auto | congruence |].
  unfold in_front in F. rewrite EQ in F. eapply before_head; [|exact F]. rewrite <- EQ. apply (gi_nd _ _ G').
Qed.

(** the line is ordered by priority; those with the same priority in order of arrival *)
Fixpoint ordered (l : list (nat * xq)) : Prop :=
  match l with [] => True | (c, p) :: t => (forall d p', In (d, p') t -> xle p p') /\ ordered t end.
Lemma ordered_filter : forall f l, ordered l -> ordered (filter f l).
Proof.
  induction l as [|(c, p) t IH]; cbn; auto. intros (H & O). destruct (f (c, p)); auto. split; auto. intros d p' I. apply filter_In in I. apply (H d p'), I.
Qed.
Lemma in_ins_tail : forall c p l x, In x (ins_tail c p l) -> x = (c, p) \/ In x l.
Proof.
  induction l as [|y t IH]; intros x; cbn [ins_tail]; [intros [<-|[]]; auto|]. destruct (forallb _ _); [intros [<-|I]; auto|].
  intros [->|I]; [right; left; auto|]. destruct (IH _ I); auto. right; right; auto.
Qed.
Lemma ordered_ins : forall c p l, ordered l -> ordered (ins_sorted c p l).
Proof.
  assert (T : forall c p l, ordered l -> ordered (ins_tail c p l)).
  { induction l as [|(d, q) t IH]; cbn [ins_tail]; [cbn; tauto|]. intros O. destruct (forallb _ _) eqn:F.
    - cbn. split; [|exact O]. intros e q' I. rewrite forallb_forall in F. specialize (F _ I). cbn in F. apply xltb_iff in F. apply xlt_le; auto.
    - cbn in O. destruct O as (O1 & O2). cbn. split; [|apply IH; auto]. intros e q' I. apply in_ins_tail in I. destruct I as [I|I]; [|eauto].
      injection I as -> ->. cbn in F. apply andb_false_iff in F. destruct F as [F|F].
      + apply xltb_false_iff in F. auto.
      + clear IH O2. induction t as [|(e, q'') t IH]; cbn in F; [discriminate|]. apply andb_false_iff in F. destruct F as [F|F].
        * apply xltb_false_iff in F. eapply xle_trans; [|exact F]. apply (O1 e). left; auto.
        * apply IH; auto. intros d' p' I. apply (O1 d' p'). right; auto. }
  intros c p l O. unfold ins_sorted. destruct l as [|(d, q) t]; [cbn; tauto|]. cbn [snd]. destruct (xltb p q) eqn:F; [|apply T; auto].
  apply xltb_iff in F. apply xlt_le in F. cbn in *. split; auto. intros e q' [I|I]; [injection I as <- <-; auto|]. eapply xle_trans; [exact F|]. apply (proj1 O e q' I).
Qed.
Lemma ordered_step : forall l s s' r, lstep l s s' -> ordered (qs s (QReq r)) -> ordered (qs s' (QReq r)).
Proof.
  intros l s s' r H O. destruct l; cbn in H.
  - destruct (qt_req _ _ H r) as (f & ->). apply ordered_filter; auto.
  - destruct H as (_ & [(_ & ->)|(_ & p & ->)]); [exact O|]. rewrite qs_m_q. destruct (qeqb _ _) eqn:Q; [|exact O]. apply qeqb_iff in Q. injection Q as ->. apply ordered_ins; auto.
  - destruct H as (_ & _ & s1 & T & ->). change (qs (m_comp c (w_requests []) s1)) with (qs s1). rewrite (tk_req _ _ _ _ _ T). destruct (memb _ _); [|exact O].
    apply ordered_filter; auto.
  - destruct H as (_ & _ & _ & V). rewrite (gv_q _ _ _ _ _ _ V). exact O.
  - destruct H as (_ & -> & _). exact O.
  - destruct H as (-> & _). exact O.
Qed.
Theorem C20_ordered : forall s r, reachable s -> ordered (qs s (QReq r)).
Proof.
  intros s r (t0 & R & sv & kc & hp & y & d & F & H).
  apply (inv_runs (fun _ _ => True) (fun s => ordered (qs s (QReq r)))) with (s := init t0 R sv kc hp y d); auto; [|apply QI_init | exact Logic.I].
  intros s1 o n s2 x Q _ W E C O. pose proof (exec_path n o s1 s2 x Q W E C) as PA.
  revert O. apply (inv_path (labs s1 o) (fun s => ordered (qs s (QReq r)))); auto. intros; eapply ordered_step; eauto.
Qed.
(** a newcomer takes its place behind everybody with the same or a smaller priority value and in front of everybody with a larger one *)
Lemma ins_place : forall c p l, ordered l -> exists l1 l2, l = l1 ++ l2 /\ ins_sorted c p l = l1 ++ (c, p) :: l2 /\
  (forall d p', In (d, p') l1 -> xle p' p) /\ (forall d p', In (d, p') l2 -> xlt p p').
Proof.
  assert (T : forall c p l, ordered l -> exists l1 l2, l = l1 ++ l2 /\ ins_tail c p l = l1 ++ (c, p) :: l2 /\
    (forall d p', In (d, p') l1 -> xle p' p) /\ (forall d p', In (d, p') l2 -> xlt p p')).
  { induction l as [|(d, q) t IH]; cbn [ins_tail]; intros O; [exists [], []; repeat split; auto; intros ? ? []|].
    destruct (forallb _ _) eqn:F.
    - exists [], ((d, q) :: t). repeat split; auto; [intros ? ? []|]. intros e q' I. rewrite forallb_forall in F. apply xltb_iff. apply (F _ I).
    - cbn in O. destruct O as (O1 & O2). destruct (IH O2) as (l1 & l2 & E1 & E2 & H1 & H2). exists ((d, q) :: l1), l2. rewrite E2. split; [cbn; congruence|]. split; auto. split; auto.
      intros e q' [I|I]; [|eauto]. injection I as <- <-. cbn in F. apply andb_false_iff in F. destruct F as [F|F]; [apply xltb_false_iff; auto|].
      clear - F O1. induction t as [|(e, q'') t IH]; cbn in F; [discriminate|]. apply andb_false_iff in F. destruct F as [F|F].
      + apply xltb_false_iff in F. eapply xle_trans; [|exact F]. apply (O1 e). left; auto.
      + apply IH; auto. intros d' p' I. apply (O1 d' p'). right; auto. }
  intros c p l O. unfold ins_sorted. destruct l as [|(d, q) t]; [exists [], []; repeat split; auto; intros ? ? []|]. cbn [snd]. destruct (xltb p q) eqn:F; [|apply T; auto].
  exists [], ((d, q) :: t). repeat split; auto; [intros ? ? []|]. apply xltb_iff in F. intros e q' [I|I]; [injection I as <- <-; auto|].
  eapply xlt_le_trans; [exact F|]. apply (proj1 O e q' I).
Qed.
Lemma fail_time_same : forall sp s, fst (fail_time sp s) = s.
Proof. intros [ | | | ] s; reflexivity. Qed.
(** a request for one thing by the current component: honored at once, which takes that there is enough, or placed in the line *)
Lemma request_one : forall s n c r q p f pr u cap s', reachable s -> wf s (ORequest c [(r, q, p)] false f pr u cap) -> c_status (comps s c) = Current ->
  r_preempt (rsc s r) = false -> exec n (ORequest c [(r, q, p)] false f pr u cap) s = (s', Ok tt) ->
  (c_requests (comps s' c) = [] /\ enough (rsc s r) q = true) \/
  (c_requests (comps s' c) = [(r, q)] /\ qs s' (QReq r) = ins_sorted c p (qs s (QReq r))).
Proof.
  intros s n c r q p f pr u cap s' R W ST PB E. pose proof (reach_p_QI _ _ R) as QQ. pose proof (qi_g _ QQ) as G.
  assert (RE : c_requests (comps s c) = []) by (apply (ki_l _ (qi_k _ QQ)); rewrite ST; unfold idle; tauto).
  set (Z := fun s0 z => GI none z /\ qs z (QReq r) = ins_sorted c p (qs s0 (QReq r)) /\ c_requests (comps z c) = [(r, q)] /\ plain (rsc z r) = plain (rsc s0 r)).
  assert (WP : wp (request n c [(r, q, p)] false f pr u cap) (fun _ s' => (c_requests (comps s' c) = [] /\ enough (rsc s r) q = true) \/
     (c_requests (comps s' c) = [(r, q)] /\ qs s' (QReq r) = ins_sorted c p (qs s (QReq r)))) (fun _ _ => True) s).
  { unfold request. apply wp_bind, wp_setc, wp_bind, wp_stat, wp_bind. rewrite comps_same. cbn [c_status w_oneof]. rewrite ST. apply wp_ret.
    assert (G1 : GI none (m_comp c (w_oneof false) s)) by (apply GI_comp; auto).
    apply wp_bind. pose proof (fail_time_same f (m_comp c (w_oneof false) s)) as FT. unfold wp at 1. destruct (fail_time f _) as [s1 [t|e]]; auto. cbn in FT. subst s1.
    apply wp_bind, wp_setc. match goal with |- wp _ _ _ ?z => set (s2 := z) in * end.
    assert (G2 : GI none s2) by (apply GI_comp; auto). change (qs s) with (qs s2). change (rsc s) with (rsc s2). assert (P2 : r_preempt (rsc s2 r) = false) by exact PB.
    assert (R2 : c_requests (comps s2 c) = []) by (unfold s2; rewrite comps_same; cbn [c_requests w_failed]; rewrite comps_same; exact RE).
    clearbody s2. clear G1 PB E ST W RE.
    apply wp_bind. unfold mfor at 1. apply wp_bind.
    eapply wp_conseq with (Q := fun _ z => Z s2 z) (X := fun _ _ => True); [| |auto].
    - assert (W1 : wp (request1 n c false (r, q, p)) (fun _ z => GI none z) (fun _ z => GI none z) s2) by (apply w_rg; auto using gq_request1).
      assert (W2 : wp (request1 n c false (r, q, p)) (fun _ z => qs z (QReq r) = ins_sorted c p (qs s2 (QReq r)) /\ c_requests (comps z c) = [(r, q)] /\ plain (rsc z r) = plain (rsc s2 r)) (fun _ _ => True) s2).
      2: { eapply wp_conseq; [eapply wp_conj; [exact W1 | exact W2] | |]; cbv beta; auto. }
      unfold request1. apply wp_bind, wp_get, wp_bind, wp_when; intros _; [apply wp_raise; auto|]. apply wp_bind, wp_when; intros _; [apply wp_raise; auto|].
      apply wp_bind, wp_setc, wp_bind. unfold q_enter at 1. apply wp_bind, wp_get. apply wp_if; intros _; [apply wp_raise; auto|]. apply wp_put.
      rewrite P2. apply wp_ret. rewrite qs_m_q, qeqb_refl. split; [reflexivity|]. split; [|reflexivity].
      change (comps (m_q ?a ?f ?z)) with (comps z). rewrite comps_same, R2. reflexivity.
    - intros _ s3 I3. apply wp_ret. apply wp_bind, wp_get, wp_bind.
      eapply wp_conseq; [apply wp_mfor_inv with (I := Z s2) (X := fun _ _ => True); auto | cbv beta | auto].
      { intros x z _ (A & B & C & D). apply wp_setr. split; [eapply GI_same; [| |exact A]; reflexivity|]. split; [auto|]. split; [auto|].
        rewrite rsc_m_rsc. destruct (Nat.eqb_spec r (fst x)) as [<-|]; auto. rewrite <- D. destruct (xltb _ _); destruct (rsc z r); reflexivity. }
      clear I3. intros _ s4 (G4 & I4 & J4 & K4). apply wp_bind, wp_get, wp_bind, wp_setc.
      match goal with |- wp _ _ _ ?z => set (s5 := z) in * end.
      assert (Z5 : Z s2 s5) by (split; [apply GI_comp; auto|]; split; [exact I4|]; split; [unfold s5; rewrite comps_same; exact J4 | exact K4]).
      clearbody s5. clear G4 I4 J4 K4. destruct Z5 as (G5 & I5 & J5 & K5).
      apply wp_bind. eapply wp_conseq; [apply w_c_try; auto | cbv beta | auto]. intros b s6 K.
      destruct K as [->|(s7 & L & G7 & PA)].
      + apply wp_bind, wp_get. rewrite J5. cbn [nonnil when].
        apply wp_bind, wp_setc. pose proof (frames_wp _ _ _ (m_comp c (w_status Requesting) s5) (tl_reschedule c t pr u cap)) as TR. unfold wp in *.
        destruct (reschedule _ _ _ _ _ _) as [s9 [x|e]]; auto. right. rewrite (tl_qs _ _ _ TR), (tl_rq _ _ _ TR), comps_same. split; [exact J5 | exact I5].
      + destruct (outcome_grant _ _ _ G5 L) as (_ & EN). assert (ZR : c_requests (comps s6 c) = []).
        { apply (apart_nil nq c s7); auto. intros [[]| | | | |]; cbn; try tauto; discriminate. }
        apply wp_bind, wp_get. rewrite ZR. apply wp_ret. left. split; auto. destruct L as (_ & L & _).
        apply (grant_single _ _ _ _ J5) in L. unfold can_one in L. apply andb_true_iff in L. rewrite <- (enough_plain _ _ q K5). apply L. }
  cbn [exec] in E. unfold wp in WP. rewrite E in WP. exact WP.
Qed.
Theorem C20_place : forall s n c r q p f pr u cap s', reachable s -> wf s (ORequest c [(r, q, p)] false f pr u cap) -> c_status (comps s c) = Current ->
  r_preempt (rsc s r) = false -> exec n (ORequest c [(r, q, p)] false f pr u cap) s = (s', Ok tt) -> c_requests (comps s' c) <> [] ->
  exists l1 l2, qs s (QReq r) = l1 ++ l2 /\ qs s' (QReq r) = l1 ++ (c, p) :: l2 /\
  (forall d p', In (d, p') l1 -> xle p' p) /\ (forall d p', In (d, p') l2 -> xlt p p').
Proof.
  intros s n c r q p f pr u cap s' R W ST PB E NE. destruct (request_one _ _ _ _ _ _ _ _ _ _ _ R W ST PB E) as [(K & _)|(_ & ->)]; [congruence|].
  apply ins_place. apply C20_ordered; auto.
Qed.
(** a newcomer, whatever its priority, is not honored at once when somebody is waiting for no more than that *)
Theorem C20_newcomer : forall s n c r q p f pr u cap s' c1 q1, reach_k s -> wf s (ORequest c [(r, q, p)] false f pr u cap) -> c_status (comps s c) = Current ->
  ordinary s r -> r_anon (rsc s r) = false -> exec n (ORequest c [(r, q, p)] false f pr u cap) s = (s', Ok tt) ->
  c_status (comps s c1) = Requesting -> c_requests (comps s c1) = [(r, q1)] -> q1 <= q -> c_requests (comps s' c) = [(r, q)].
Proof.
  intros s n c r q p f pr u cap s' c1 q1 R W ST O AN E S1 R1 LE.
  destruct (request_one _ _ _ _ _ _ _ _ _ _ _ (reach_k_p _ R) W ST (proj1 O) E) as [(_ & K)|(K & _)]; auto. exfalso.
  destruct (reach_k_Rest s R) as (JS & _). assert (Q1 : 0 <= q1).
  { apply (req_nonneg s c1 r q1); auto; [apply JS | apply JS | rewrite R1; left; auto]. }
  pose proof (claimed_nonneg s r) as CN.
  apply (C18_no_lost_wakeup s c1 R S1); [rewrite R1; discriminate | rewrite R1; intros x y [H|[]]; injection H as <- <-; auto|].
  assert (RM : room s r q1) by (apply room_enough; eapply enough_less; eauto; apply CN; auto; apply JS).
  unfold can_have. rewrite R1. destruct (c_oneof _); [exists r, q1; split; auto; left; auto | intros x y [H|[]]; injection H as <- <-; auto].
Qed.

(** ** Scripts for the examples *)
Definition livelyb (s : env) (o : op) : bool := match o with ORequest c _ _ _ _ _ _ => negb (steqb (c_status (comps s c)) Interrupted) | _ => true end.
Lemma livelyb_ok : forall s o, livelyb s o = true -> lively s o.
Proof. intros s o H. destruct o; cbn in *; auto. apply negb_true_iff, steqb_false_iff in H. auto. Qed.
Lemma script_k : forall n l s s', script_p livelyb n l s = Some s' -> runs_k s s'.
Proof.
  intros n l. assert (TR : forall a b c, runs_k a b -> runs_k b c -> runs_k a c) by (intros a b c H K; induction K as [|s0 s1 o s2 n0 r K IH W L E X]; [exact H | exact (rk_step _ _ _ _ _ _ (IH H) W L E X)]).
  induction l as [|o t IH]; intros s s' H; cbn [script_p] in H.
  - injection H as <-. constructor.
  - destruct (livelyb s o && wfb s o) eqn:W; [|discriminate]. apply andb_prop in W. destruct W as (B & W).
    destruct (exec n o s) as [s1 [a|e]] eqn:E; [|discriminate].
    eapply TR; [|apply IH; eauto]. eapply rk_step with (o := o); [constructor | apply wfb_wf; auto | apply livelyb_ok; auto | exact E | discriminate].
Qed.
Lemma stp_k : forall l t0 R sv kc hp y d, fresh R -> okp livelyb (init t0 R sv kc hp y d) l = true -> reach_k (stp livelyb (init t0 R sv kc hp y d) l).
Proof.
  unfold okp, stp. intros l t0 R sv kc hp y d F H. exists t0, R, sv, kc, hp, y, d. split; auto.
  destruct (script_p livelyb 19 l (init t0 R sv kc hp y d)) eqn:E; [|discriminate]. eapply script_k; eauto.
Qed.
Lemma callk_ok : forall o s, livelyb s o = true -> wfb s o = true -> snd (exec 19 o s) = Ok tt -> callk s o (fst (exec 19 o s)).
Proof.
  intros o s L W E. split; [apply wfb_wf; auto|]. split; [apply livelyb_ok; auto|]. exists 19%nat, (Ok tt). split; [|discriminate]. rewrite <- E. apply surjective_pairing.
Qed.
(** resource 0: capacity 5; 1: anonymous, capacity 4, 1 in use; 2: preemptive, capacity 3; 3: honor_only_first, capacity 2;
    4: honor_only_highest_priority, capacity 2; others: capacity 3 *)
Definition rs1 (r : nat) : resource :=
  match r with
  | 0%nat => res0 (Fin 5) 0 false false false false
  | 1%nat => res0 (Fin 4) 1 true false false false
  | 2%nat => res0 (Fin 3) 0 false true false false
  | 3%nat => res0 (Fin 2) 0 false false true false
  | 4%nat => res0 (Fin 2) 0 false false false true
  | _ => res0 (Fin 3) 0 false false false false
  end.
Lemma rs1_fresh : fresh rs1.
Proof. intros r. unfold rs1. destruct r as [|[|[|[|[|r]]]]]; do 6 eexists; (split; [reflexivity|]); auto; discriminate. Qed.
Definition envw (y : bool) : env := init 0 rs1 (fun _ => 0%Z) (fun _ => PInf) (fun _ => true) y false.
Definition after (l : list op) : env := stp livelyb (envw false) l.
Ltac reached := unfold after, envw; apply stp_k; [apply rs1_fresh | vm_compute; reflexivity].

(** 1 claims 5 of resource 0; 2 asks 2, 3 asks 3, 4 asks 3 *)
Definition line : list op :=
  [mk 1; mk 2; mk 3; mk 4; go; OStep; req 1 [(0%nat, 5, Fin 0)]; OStep; req 2 [(0%nat, 2, Fin 0)]; OStep; req 3 [(0%nat, 3, Fin 0)];
   OStep; req 4 [(0%nat, 3, Fin 0)]].
(** 3 waits and cannot be honored *)
Example C18_case : reach_k (after line) /\ c_status (comps (after line) 3%nat) = Requesting /\ c_requests (comps (after line) 3%nat) <> [] /\
  forall r q, In (r, q) (c_requests (comps (after line) 3%nat)) -> ordinary (after line) r.
Proof.
  split; [reached|]. split; [vm_compute; reflexivity|]. split; [vm_compute; discriminate|].
  assert (E : c_requests (comps (after line) 3%nat) = [(0%nat, 3)]) by (vm_compute; reflexivity).
  rewrite E. intros r q [H|[]]. injection H as <- <-. apply (proj2 (ordinary_exc _ _)). vm_compute. reflexivity.
Qed.
(** a state in which a call has given up part of a resource: 1 releases 4; 2 is honored, 3 and 4 still wait for lack of room *)
Example C18_case2 : let s := after (line ++ [OStep; ORelease 1 [(0%nat, Some 4)]]) in
  reach_k s /\ c_requests (comps s 2%nat) = [] /\ c_status (comps s 3%nat) = Requesting /\ c_requests (comps s 3%nat) = [(0%nat, 3)] /\ ~ can_have s 3%nat.
Proof.
  cbv zeta. split; [reached|]. split; [vm_compute; reflexivity|]. split; [vm_compute; reflexivity|]. split; [vm_compute; reflexivity|].
  apply C18_no_lost_wakeup; [reached | vm_compute; reflexivity | vm_compute; discriminate|].
  match goal with |- forall r q, In (r, q) (c_requests (comps ?s ?c)) -> _ => assert (E : c_requests (comps s c) = [(0%nat, 3)]) by (vm_compute; reflexivity); rewrite E end.
  intros r q [H|[]]. injection H as <- <-. apply (proj2 (ordinary_exc _ _)). vm_compute. reflexivity.
Qed.

(** what is left out of C18 does not hold.  A request made for an interrupted component is not tried at all: *)
Definition hold1 (c : nat) (d : Q) : op := OHold c (SDur (Fin d)) (Fin 0) false 0%Z None.
Theorem C18_interrupted_refuted : exists s c, reachable s /\ c_status (comps s c) = Requesting /\ c_requests (comps s c) <> [] /\
  (forall r q, In (r, q) (c_requests (comps s c)) -> ordinary s r /\ r_anon (rsc s r) = false) /\ can_have s c.
Proof.
  exists (stp any (envw false) [mk 1; mk 2; go; OStep; hold1 1 10; OStep; OInterrupt 1; req 1 [(0%nat, 1, Fin 0)]]), 1%nat.
  set (s := stp _ _ _). assert (E : c_requests (comps s 1%nat) = [(0%nat, 1)]) by (vm_compute; reflexivity).
  split; [apply stp_reach; [auto | apply rs1_fresh | vm_compute; reflexivity]|]. split; [vm_compute; reflexivity|]. split; [rewrite E; discriminate|]. split.
  - rewrite E. intros r q [H|[]]. injection H as <- <-. split; [apply (proj2 (ordinary_exc _ _))|]; vm_compute; reflexivity.
  - unfold can_have. rewrite E. assert (O : c_oneof (comps s 1%nat) = false) by (vm_compute; reflexivity). rewrite O.
    intros r q [H|[]]. injection H as <- <-. apply (proj2 (room_enough _ _ _)). vm_compute. reflexivity.
Qed.
(** bumping frees more than the bumping request takes; the others are not tried then *)
Theorem C18_preemptive_refuted : exists s c, reach_k s /\ c_status (comps s c) = Requesting /\ c_requests (comps s c) <> [] /\
  (forall r q, In (r, q) (c_requests (comps s c)) -> r_anon (rsc s r) = false) /\ can_have s c.
Proof.
  exists (after [mk 1; mk 2; mk 3; go; OStep; req 1 [(2%nat, 3, Fin 5)]; OStep; req 2 [(2%nat, 2, Fin 5)]; OStep; req 3 [(2%nat, 1, Fin 0)]]), 2%nat.
  set (s := after _). assert (E : c_requests (comps s 2%nat) = [(2%nat, 2)]) by (vm_compute; reflexivity).
  split; [unfold s; reached|]. split; [vm_compute; reflexivity|]. split; [rewrite E; discriminate|]. split.
  - rewrite E. intros r q [H|[]]. injection H as <- <-. vm_compute; reflexivity.
  - unfold can_have. rewrite E. assert (O : c_oneof (comps s 2%nat) = false) by (vm_compute; reflexivity). rewrite O.
    intros r q [H|[]]. injection H as <- <-. apply (proj2 (room_enough _ _ _)). vm_compute. reflexivity.
Qed.
(** in yieldless mode the retries of an anonymous resource after a request that is honored at once are left to the resumption of the
    requesting component; they are never made when that is cancelled: 2 puts 1, is cancelled by 3, and 1 waits for ever *)
Theorem C18_yieldless_refuted : exists s c, reach_k s /\ yl s = true /\ c_status (comps s c) = Requesting /\ c_requests (comps s c) <> [] /\
  (forall d, c_retry (comps s d) <> [] -> c_status (comps s d) = Data) /\
  (forall r q, In (r, q) (c_requests (comps s c)) -> r_preempt (rsc s r) = false /\ r_hfirst (rsc s r) = false /\ r_hprio (rsc s r) = false) /\ can_have s c.
Proof.
  set (l := [mk 1; mk 2; mk 3; go; OStep; req 1 [(1%nat, 4, Fin 0)]; OStep; req 2 [(1%nat, -1, Fin 0)]; OStep; OCancel 2]).
  exists (stp livelyb (envw true) l), 1%nat.
  set (s := stp _ _ _). assert (E : c_requests (comps s 1%nat) = [(1%nat, 4)]) by (vm_compute; reflexivity).
  split; [unfold s, envw; apply stp_k; [apply rs1_fresh | vm_compute; reflexivity]|]. split; [vm_compute; reflexivity|]. split; [vm_compute; reflexivity|]. split; [rewrite E; discriminate|].
  split; [|split].
  - intros d. destruct d as [|[|[|[|d]]]]; try (intros H; exfalso; apply H; vm_compute; reflexivity); vm_compute; reflexivity.
  - rewrite E. intros r q [H|[]]. injection H as <- <-. repeat split; vm_compute; reflexivity.
  - unfold can_have. rewrite E. assert (O : c_oneof (comps s 1%nat) = false) by (vm_compute; reflexivity). rewrite O.
    intros r q [H|[]]. injection H as <- <-. apply (proj2 (room_enough _ _ _)). vm_compute. reflexivity.
Qed.

Print Assumptions C18_no_lost_wakeup.
Print Assumptions C20_not_overtaken.
Print Assumptions C20_first_only.
Print Assumptions C20_ordered.
Print Assumptions C20_place.
Print Assumptions C20_newcomer.
Print Assumptions C18_interrupted_refuted.
Print Assumptions C18_preemptive_refuted.
Print Assumptions C18_yieldless_refuted.
