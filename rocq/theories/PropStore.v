(** Properties C27, C28, C29, C30: stores. *)
From Coq Require Import QArith Lqa List Bool Arith ZArith Lia.
From Verif Require Import Base Kernel Wp KernelE KernelL KernelX KernelT KernelU KernelR KernelQ KernelP KernelA KernelC KernelG KernelV KernelW KernelY KernelZ KernelN PropRes.
Import ListNotations.
Open Scope Q_scope.

(** ** What the documentation says *)
(** [items s k]: the items in store k, in order; [takers s k]: the components waiting in from_store for store k;
    [putters s k]: the components waiting in to_store for store k (KernelZ) *)
Goal forall s k, items s k = map fst (qs s (QStore k)). Proof. reflexivity. Qed.
Goal forall s k, takers s k = map fst (qs s (QFrom k)). Proof. reflexivity. Qed.
Goal forall s k, putters s k = map fst (qs s (QTo k)). Proof. reflexivity. Qed.
(** what the filter of a requester says during the call o *)
Definition accepts (s : env) (o : op) (d i : nat) : bool :=
  match o with OFilter c f => if Nat.eqb d c then f i else c_filter (comps s d) i | _ => c_filter (comps s d) i end.
(** d can get item i from store k: it waits for it, or it calls from_store *)
Definition wants (s : env) (o : op) (d i k : nat) : Prop :=
  (In d (takers s k) /\ accepts s o d i = true) \/ exists ks f key rp fl fp u cap, o = OFromStore d ks f key rp fl fp u cap /\ In k ks /\ f i = true.
(** w can put item i in store k: it waits to do so, or it calls to_store *)
Definition brings (s : env) (o : op) (w i k : nat) : Prop :=
  (In w (putters s k) /\ c_titem (comps s w) = Some i) \/ exists ks rp p fl fp u cap, o = OToStore w ks i rp p fl fp u cap /\ In k ks.
(** the account of one call: [puts]: (component that puts, or None for enter; item; store), [outs]: items that just leave,
    [gives]: (receiver, item, store) *)
Record account (s : env) (o : op) (puts : list (option nat * nat * nat)) (outs : list (nat * nat)) (gives : list (nat * nat * nat)) (s' : env) : Prop := {
  ac_balance : forall k i, (cnt (items s' k) i + cnt2 outs i k + cnt2 (map ik gives) i k = cnt (items s k) i + cnt2 (map ik puts) i k)%nat;
  ac_put : forall w i k, In (Some w, i, k) puts -> brings s o w i k /\ forall k', ~ In w (putters s' k');
  ac_enter : forall i k, In (None, i, k) puts <-> exists q, o = OEnterStore i k q;
  ac_put_once : NoDup (map who puts);
  ac_out : outs = match o with OLeaveStore i k => [(i, k)] | _ => [] end;
  ac_give : forall d i k, In (d, i, k) gives -> wants s o d i k /\ c_fitem (comps s' d) = Some i /\ forall k', ~ In d (takers s' k');
  ac_give_once : NoDup (map who gives);
  ac_others : forall x, ~ In x (map who gives) -> c_fitem (comps s' x) = c_fitem (comps s x) \/
    (c_fitem (comps s' x) = None /\ ((o = OEnd /\ x = cur s) \/ exists ks f key rp fl fp u cap, o = OFromStore x ks f key rp fl fp u cap)) }.
(** item i is in store k, or waits to be put there *)
Definition near (s : env) (k i : nat) : Prop := In i (items s k) \/ exists w, In w (putters s k) /\ c_titem (comps s w) = Some i.
(** rescan and filter: every waiting requester of the stores concerned accepts at most one item *)
Definition single (s : env) (o : op) : Prop :=
  forall k, match o with ORescan k' => k = k' | OFilter c _ => In c (takers s k) | _ => False end ->
    forall d i j, In d (takers s k) -> near s k i -> near s k j -> accepts s o d i = true -> accepts s o d j = true -> i = j.

Lemma own_who : forall p, own p -> map who p = map Some (whos p).
Proof.
  induction p as [|[[w i] k] t IH]; intros O; auto. assert (own t) by (intros a b I; apply (O a b); cbn; auto).
  unfold whos. cbn [flat_map map]. fold (whos t). unfold who at 1 3. cbn [fst]. destruct w as [w|]; [cbn; f_equal; apply IH; auto|]. destruct (O i k). cbn; auto.
Qed.
Lemma NoDup_Some : forall l : list nat, NoDup l -> NoDup (map Some l).
Proof. induction 1 as [|x l N H IH]; cbn; constructor; auto. intros I. apply in_map_iff in I. destruct I as (y & E & I). injection E as ->. auto. Qed.
Lemma own_NoDup : forall p, own p -> NoDup (whos p) -> NoDup (map who p).
Proof. intros p O N. rewrite own_who; auto. apply NoDup_Some; auto. Qed.
Lemma tr_account : forall s o s0 p g s', tr s0 p [] g s' -> own p -> (forall k, items s0 k = items s k) -> (forall k, takers s0 k = takers s k) -> (forall k, putters s0 k = putters s k) ->
  (forall x, c_titem (comps s0 x) = c_titem (comps s x)) -> (forall x, c_fitem (comps s0 x) = c_fitem (comps s x)) -> (forall x i, c_filter (comps s0 x) i = accepts s o x i) ->
  match o with OEnterStore _ _ _ | OLeaveStore _ _ => False | _ => True end -> account s o p [] g s'.
Proof.
  intros s o s0 p g s' T O HI HT HP HN HF HC HO. destruct T as [B G N Q P M R F]. constructor.
  - intros k i. rewrite <- HI. apply B.
  - intros w i k I. destruct (P _ _ _ I) as (A & C & D). split; auto. left. rewrite <- HP, <- HN. auto.
  - intros i k. split; [intros I; destruct (O i k I) | intros (q & ->); destruct HO].
  - apply own_NoDup; auto.
  - destruct o; auto. destruct HO.
  - intros d i k I. destruct (G _ _ _ I) as (A & C & D & E). split; auto. left. rewrite <- HT, <- HC. auto.
  - auto.
  - intros x I. left. rewrite <- HF. apply Q; auto.
Qed.
Lemma in_from : forall s d k, QI s -> In d (takers s k) <-> In k (c_from (comps s d)).
Proof. intros s d k Q. rewrite (gi_mem _ _ (qi_g _ Q) (QFrom k) d eq_refl). cbn. unfold none. tauto. Qed.
Lemma nil_account : forall s o s', (forall k, items s' k = items s k) -> match o with OEnterStore _ _ _ | OLeaveStore _ _ => False | _ => True end ->
  (forall x, c_fitem (comps s' x) = c_fitem (comps s x) \/
    (c_fitem (comps s' x) = None /\ ((o = OEnd /\ x = cur s) \/ exists ks f key rp fl fp u cap, o = OFromStore x ks f key rp fl fp u cap))) -> account s o [] [] [] s'.
Proof.
  intros s o s' A HO H. constructor.
  - intros k i. rewrite A. cbn. lia.
  - intros w i k [].
  - intros i k. split; [intros [] | intros (q & ->); destruct HO].
  - constructor.
  - destruct o; auto. destruct HO.
  - intros d i k [].
  - constructor.
  - intros x _. apply H.
Qed.
Lemma NS_account : forall s o s' d, NS d s s' -> (forall x, d = Some x -> o = OEnd /\ x = cur s /\ c_fitem (comps s' x) = None) ->
  match o with OEnterStore _ _ _ | OLeaveStore _ _ => False | _ => True end -> account s o [] [] [] s'.
Proof.
  intros s o s' d (A & B) H HO. apply nil_account; auto; [intros k; unfold items; rewrite A; auto|].
  intros x. destruct (Nat.eq_dec x (cur s)) as [->|NE].
  - destruct d as [x|]; [|left; apply B; discriminate]. destruct (H x eq_refl) as (H1 & H2 & H3). subst x. right. auto.
  - left. apply B. intros E. destruct (H x (eq_sym E)) as (_ & H2 & _). auto.
Qed.
Lemma end_fitem : forall n s s', exec n OEnd s = (s', Ok tt) -> c_fitem (comps s' (cur s)) = None.
Proof.
  intros n s s' E. cbn [exec] in E. apply get_inv in E. unfold terminate in E. apply get_inv in E.
  apply unit_inv in E. destruct E as (z1 & _ & E). apply unit_inv in E. destruct E as (z2 & E4 & E). injection E4 as <-.
  apply unit_inv in E. destruct E as (z3 & E4 & E). injection E4 as <-. apply unit_inv in E. destruct E as (z4 & E4 & E). injection E4 as <-.
  injection E as <-. rewrite !comps_same. reflexivity.
Qed.

(** ** C27 *)
(** every successful call keeps the account *)
Theorem C27_conserved : forall s n o s', reachable s -> wf s o -> exec n o s = (s', Ok tt) -> single s o -> exists puts outs gives, account s o puts outs gives s'.
Proof.
  intros s n o s' R W E SG. pose proof (reach_p_QI _ _ R) as Q. pose proof (reach_p_one _ _ R) as O. pose proof (rdy_of _ Q O) as RD.
  destruct (storeless o) eqn:SL.
  { exists [], [], []. pose proof (n_exec None n o SL s) as X. rewrite E in X. apply NS_account with (d := None); auto; [discriminate | destruct o; auto; discriminate]. }
  destruct o; try discriminate.
  - (* from_store *) cbn [exec] in E. destruct (from_ok _ _ _ _ _ _ _ _ _ _ _ _ Q O E) as [(i & k & p & s1 & s2 & FI & IN & B1 & R1 & U1 & T & OW & B2 & GF & U2)|(_ & B & GF)].
    + destruct (out_of_tr _ _ _ _ _ _ U1 T) as (_ & NG & NP). destruct (tr_but _ _ _ _ _ _ _ _ B1 T B2 NG NP) as (A1 & A2 & A3 & A4 & A5 & A6).
      exists p, [], [(c, i, k)]. constructor.
      * intros k' j. rewrite <- A1. change (map ik [(c, i, k)]) with [(i, k)]. change (cnt2 [] j k') with 0%nat. change (cnt2 (map ik []) j k') with 0%nat. lia.
      * intros w j k' I. destruct (A4 _ _ _ I) as (X1 & X2 & X3 & X4). split; auto. left. auto.
      * intros j k'. split; [intros I; destruct (OW _ _ I) | intros (q & X); discriminate].
      * apply own_NoDup; auto. apply (t_pnd _ _ _ _ _ T).
      * reflexivity.
      * intros d j k' [I|[]]. injection I as <- <- <-. split; [|split; auto; apply U2]. right. exists stores, f, key, rprio, fail, fprio, urgent, cap. split; auto.
        destruct (find_item_some _ _ _ _ _ _ _ _ FI) as [X|(X & k' & Y & _)]; [discriminate|]. split; auto. eapply find_item_in; eauto.
      * cbn. constructor; [intros [] | constructor].
      * intros x NX. left. apply A3; [intros ->; apply NX; cbn; auto | intros []].
    + exists [], [], []. destruct B as (B1 & B2). apply nil_account; auto. intros x. destruct (Nat.eq_dec x c) as [->|NE]; [|left; rewrite B2; auto]. right. split; auto. right. exists stores, f, key, rprio, fail, fprio, urgent, cap. auto.
  - (* to_store *) cbn [exec] in E. destruct (to_ok _ _ _ _ _ _ _ _ _ _ _ _ Q O W E) as [(l1 & k & l2 & s1 & s2 & EK & _ & _ & B1 & R1 & U1 & F & EN & B2 & U2 & GF)|(_ & B & GF & _)].
    + destruct (tr_enters _ _ _ _ _ R1 F EN) as (q & g & T & LW). assert (OW : own q) by (apply own_whos; auto).
      destruct (out_of_tr _ _ _ _ _ _ U1 T) as (_ & NG & NP). destruct (tr_but _ _ _ _ _ _ _ _ B1 T B2 NG NP) as (A1 & A2 & A3 & A4 & A5 & A6).
      exists ((Some c, i, k) :: q), [], g. constructor.
      * intros k' j. rewrite <- (A1 k' j) at 1. reflexivity.
      * intros w j k' [I|I].
        -- injection I as <- <- <-. split; [|apply U2]. right. exists stores, rprio, p, fail, fprio, urgent, cap. split; auto. subst stores. apply in_or_app. cbn. auto.
        -- destruct (A4 w j k') as (X1 & X2 & X3 & X4); [cbn; auto|]. split; auto. left. auto.
      * intros j k'. split; [intros [I|I]; [discriminate | destruct (OW _ _ I)] | intros (z & X); discriminate].
      * cbn [map]. unfold who at 1. cbn [fst]. rewrite own_who by auto. constructor.
        -- intros I. apply in_map_iff in I. destruct I as (y & X & I). injection X as ->. apply NP. exact I.
        -- apply NoDup_Some. apply (t_pnd _ _ _ _ _ T).
      * reflexivity.
      * intros d j k' I. destruct (A2 _ _ _ I) as (X1 & X2 & X3 & X4 & X5). split; auto. left. auto.
      * apply (t_gnd _ _ _ _ _ T).
      * intros x NX. left. destruct (Nat.eq_dec x c) as [->|NE]; auto. apply A3; auto.
    + exists [], [], []. destruct B as (B1 & B2). apply nil_account; auto. intros x. left. destruct (Nat.eq_dec x c) as [->|NE]; [auto | rewrite B2; auto].
  - (* enter *) cbn [exec] in E. destruct (enter_cases _ _ _ _ _ _ _ RD E) as [(_ & F & EN & _)|(e & X & _)]; [|discriminate].
    destruct (tr_enters _ _ _ _ _ RD F EN) as (q & g & T & LW). assert (OW : own q) by (apply own_whos; auto). exists ((None, i, k) :: q), [], g.
    destruct T as [B G N P1 P2 M P3 FF]. constructor; auto.
    + intros w' j k' [I|I]; [discriminate|]. destruct (P2 w' j k') as (A1 & A2 & A3); [cbn; auto|]. split; auto. left. auto.
    + intros j k'. split; [intros [I|I]; [injection I as <- <-; eauto | destruct (OW _ _ I)] | intros (z & X); injection X as -> -> _; cbn; auto].
    + cbn [map]. unfold who at 1. cbn [fst]. rewrite own_who by auto. constructor; [|apply NoDup_Some; exact M]. intros I. apply in_map_iff in I. destruct I as (y & X & _). discriminate.
    + intros d j k' I. destruct (G _ _ _ I) as (A & C & D & X). split; auto. left. auto.
    + intros x I. left. apply P1; auto.
  - (* leave *) cbn [exec] in E. destruct (leave_ok _ _ _ _ _ RD E) as (I & L & _ & _). destruct (tr_leaves _ _ _ _ RD I L) as (p & T & LW). assert (OW : own p) by (apply own_whos; auto).
    exists p, [(i, k)], []. destruct T as [B G N P1 P2 M P3 FF]. constructor; auto.
    + intros w' j k' J. destruct (P2 w' j k' J) as (A1 & A2 & A3). split; auto. left. auto.
    + intros j k'. split; [intros J; destruct (OW _ _ J) | intros (z & X); discriminate].
    + apply own_NoDup; auto.
    + intros d j k' [].
    + intros x J. left. apply P1; auto.
  - (* set_capacity *) cbn [exec] in E. unfold st_set_cap in E. apply get_inv in E. apply unit_inv in E. destruct E as (z1 & E1 & E). injection E1 as <-. apply get_inv in E.
    apply unit_inv in E. destruct E as (z1 & E1 & E). injection E1 as <-.
    match type of E with _ ?z = _ => set (z1 := z) in * end.
    assert (R1 : rdy z1). { destruct RD as [[e1 e2 e3 e4 e5 e6 e7 e8] r2 r3 r4 r5 r6 r7]. constructor; auto. constructor; auto. }
    destruct (xleb (kcap s k) cap) eqn:LE; cbn [when] in E.
    + apply get_inv in E. destruct (rescan_to_ok _ _ _ _ _ R1 E) as (p & g & T & _ & OW). exists p, [], g. apply tr_account with (s0 := z1); auto.
    + injection E as <-. exists [], [], []. apply tr_account with (s0 := z1); auto; [apply tr_refl | intros i k' []].
  - (* rescan *) cbn [exec] in E. assert (MD : modest s k). { intros d i j D A B F G. eapply (SG k eq_refl d i j); eauto. }
    destruct (rescan_ok _ _ _ _ RD MD E) as (p & g & T & _ & OW). exists p, [], g. apply tr_account with (s0 := s); auto.
  - (* filter *) cbn [exec] in E. unfold set_filter in E. apply unit_inv in E. destruct E as (z1 & E1 & E). injection E1 as <-. apply get_inv in E. set (z1 := m_comp c (w_filter f) s) in *.
    assert (R1 : rdy z1). { apply rdy_same; auto. apply EI_comp; [intros; repeat split; reflexivity | apply RD]. }
    assert (CF : c_from (comps z1 c) = c_from (comps s c)). { unfold z1. rewrite comps_same. reflexivity. } rewrite CF in E.
    assert (AC : forall x i, c_filter (comps z1 x) i = accepts s (OFilter c f) x i). { intros x i. unfold z1. rewrite comps_m_comp. cbn [accepts]. destruct (Nat.eqb_spec x c) as [->|]; auto. }
    assert (TI : forall x, c_titem (comps z1 x) = c_titem (comps s x)). { intros x. unfold z1. rewrite comps_m_comp. destruct (Nat.eqb_spec x c) as [->|]; auto. }
    assert (FI : forall x, c_fitem (comps z1 x) = c_fitem (comps s x)). { intros x. unfold z1. rewrite comps_m_comp. destruct (Nat.eqb_spec x c) as [->|]; auto. }
    assert (MD : forall k, In k (c_from (comps s c)) -> modest z1 k).
    { intros k K d i j D A B F G. rewrite AC in F, G. assert (NR : forall a, about z1 k a -> near s k a). { intros a [X|(w & X & Y)]; [left; auto | right; exists w; split; auto; rewrite <- TI; auto]. }
      eapply (SG k); eauto. cbn. apply in_from; auto. }
    destruct (rescans_ok _ _ _ _ R1 MD E) as (p & g & T & _ & OW). exists p, [], g. apply tr_account with (s0 := z1); auto.
  - (* end of a process *) exists [], [], []. pose proof (n_end n s) as X. rewrite E in X. apply NS_account with (d := Some (cur s)); auto. intros x Z. injection Z as <-. split; auto. split; auto. eapply end_fitem; eauto.
Qed.
(** the account of a whole execution in which all calls succeed *)
Inductive ledger : env -> list (option nat * nat * nat) -> list (nat * nat) -> list (nat * nat * nat) -> Prop :=
| lg_start : forall t0 R sv kc hp y d, fresh R -> ledger (init t0 R sv kc hp y d) [] [] []
| lg_call : forall s p q g n o s' p' q' g', ledger s p q g -> wf s o -> exec n o s = (s', Ok tt) -> single s o -> account s o p' q' g' s' -> ledger s' (p ++ p') (q ++ q') (g ++ g').
(** executions in which all calls succeed *)
Inductive smooth : env -> Prop :=
| sm_start : forall t0 R sv kc hp y d, fresh R -> smooth (init t0 R sv kc hp y d)
| sm_call : forall s n o s', smooth s -> wf s o -> exec n o s = (s', Ok tt) -> single s o -> smooth s'.
Lemma smooth_reach : forall s, smooth s -> reachable s.
Proof.
  induction 1 as [t0 R sv kc hp y d F | s n o s' H IH W E S].
  - exists t0, R, sv, kc, hp, y, d. split; auto. constructor.
  - destruct IH as (t0 & R & sv & kc & hp & y & d & F & K). exists t0, R, sv, kc, hp, y, d. split; auto. eapply rpp_step; eauto. discriminate.
Qed.
(** over any such execution: an item was put as often as it left, was given away or is in the store now *)
Theorem C27_history : forall s, smooth s -> exists puts outs gives, ledger s puts outs gives /\
  forall k i, (cnt (items s k) i + cnt2 outs i k + cnt2 (map ik gives) i k = cnt2 (map ik puts) i k)%nat.
Proof.
  intros s H. induction H as [t0 R sv kc hp y d F | s n o s' H IH W E S].
  - exists [], [], []. split; [constructor; auto | reflexivity].
  - destruct IH as (p & q & g & L & B). destruct (C27_conserved _ _ _ _ (smooth_reach _ H) W E S) as (p' & q' & g' & A).
    exists (p ++ p'), (q ++ q'), (g ++ g'). split; [eapply lg_call; eauto|]. intros k i. pose proof (ac_balance _ _ _ _ _ _ A k i) as X. specialize (B k i).
    rewrite !map_app, !cnt2_app. lia.
Qed.
(** an item that entered a store once is in at most one place: in the store, gone, or with one receiver *)
Theorem C27_one_place : forall s puts outs gives i k, ledger s puts outs gives -> cnt2 (map ik puts) i k = 1%nat ->
  (forall k i, (cnt (items s k) i + cnt2 outs i k + cnt2 (map ik gives) i k = cnt2 (map ik puts) i k)%nat) ->
  (In i (items s k) /\ ~ In (i, k) outs /\ forall d, ~ In (d, i, k) gives) \/ (~ In i (items s k) /\ In (i, k) outs /\ forall d, ~ In (d, i, k) gives) \/
  (~ In i (items s k) /\ ~ In (i, k) outs /\ exists d, In (d, i, k) gives).
Proof.
  intros s p q g i k _ H B. specialize (B k i). rewrite H in B. pose proof (cnt_in (items s k) i) as C1. pose proof (cnt2_in q i k) as C2. pose proof (cnt2_in (map ik g) i k) as C3.
  assert (G : (exists d, In (d, i, k) g) <-> In (i, k) (map ik g)).
  { rewrite in_map_iff. split; [intros (d & I); exists (d, i, k); auto | intros ([[d a] b] & X & I); unfold ik in X; cbn in X; injection X as -> ->; eauto]. }
  destruct (cnt (items s k) i) as [|[|]] eqn:N1; destruct (cnt2 q i k) as [|[|]] eqn:N2; destruct (cnt2 (map ik g) i k) as [|[|]] eqn:N3; try lia.
  - right. right. split; [intros X; apply C1 in X; lia|]. split; [intros X; apply C2 in X; lia|]. apply G, C3. lia.
  - right. left. split; [intros X; apply C1 in X; lia|]. split; [apply C2; lia|]. intros d X. assert (Y : exists d, In (d, i, k) g) by eauto. apply G, C3 in Y. lia.
  - left. split; [apply C1; lia|]. split; [intros X; apply C2 in X; lia|]. intros d X. assert (Y : exists d, In (d, i, k) g) by eauto. apply G, C3 in Y. lia.
Qed.

(** example: component 1 waits for items 11 and 12 in store 0 (its filter is changed later), 2 waits for 13; stores 0 has room for 2, 1 for 1 *)
Definition kcaps (k : nat) : xq := match k with 0%nat => Fin 2 | 1%nat => Fin 1 | _ => PInf end.
Definition envk : env := init 0 rs0 (fun _ => 0%Z) kcaps (fun _ => true) false false.
Definition from (c : nat) (ks : list nat) (f : nat -> bool) : op := OFromStore c ks f None (Fin 0) SNone (Fin 0) false None.
Definition to (c : nat) (ks : list nat) (i : nat) : op := OToStore c ks i (Fin 0) (Fin 0) SNone (Fin 0) false None.
Definition is (i j : nat) : bool := Nat.eqb i j.
Definition never (i : nat) : bool := false.
Definition shop : list op := [mk 1; mk 2; mk 3; mk 4; go; OStep; from 1 [0%nat] never; OStep; from 2 [0%nat; 1%nat] (is 13); OStep; to 3 [0%nat] 11; OStep; to 4 [0%nat] 12; OStep; to 3 [0%nat] 14].
Definition shop2 : list op := shop ++ [OTouch 1 (fun i => is 11 i || is 12 i)].
(** an item handed to a waiting requester and the room used by a waiting to_store, in one call *)
Example C27_case : let s := stp any envk shop2 in let o := OLeaveStore 11 0 in let s' := fst (exec 19 o s) in
  reachable s /\ wf s o /\ single s o /\ exec 19 o s = (s', Ok tt) /\ items s 0 = [11; 12]%nat /\ items s' 0 = [12; 14]%nat /\ putters s 0 = [3%nat] /\ putters s' 0 = [] /\ c_status (comps s' 3) = Scheduled.
Proof.
  intros s o s'. split; [apply stp_reach with (P := fun _ _ => True); auto using rs0_fresh; vm_compute; reflexivity|].
  split; [apply wfb_wf; vm_compute; reflexivity|]. split; [intros k []|]. split; [|repeat split; vm_compute; reflexivity].
  assert (E : snd (exec 19 o s) = Ok tt) by (vm_compute; reflexivity). unfold s'. rewrite <- E. apply surjective_pairing.
Qed.
(** without [single]: rescan takes all accepted items out of the store for one requester, that gets only the last one *)
Theorem C27_rescan_refuted : exists s k s', reachable s /\ wf s (ORescan k) /\ exec 19 (ORescan k) s = (s', Ok tt) /\
  In 11%nat (items s k) /\ ~ In 11%nat (items s' k) /\ (forall x, (x < 5)%nat -> c_fitem (comps s' x) <> Some 11%nat) /\ forall puts outs gives, ~ account s (ORescan k) puts outs gives s'.
Proof.
  set (s := stp any envk shop2). exists s, 0%nat, (fst (exec 19 (ORescan 0) s)). split; [apply stp_reach with (P := fun _ _ => True); auto using rs0_fresh; vm_compute; reflexivity|].
  split; [apply wfb_wf; vm_compute; reflexivity|].
  split. { assert (E : snd (exec 19 (ORescan 0) s) = Ok tt) by (vm_compute; reflexivity). rewrite <- E. apply surjective_pairing. }
  assert (I0 : items s 0 = [11; 12]%nat) by (vm_compute; reflexivity). assert (T0 : takers s 0 = [1; 2]%nat) by (vm_compute; reflexivity).
  assert (A1 : c_filter (comps s 2) 11%nat = false) by (vm_compute; reflexivity). assert (A2 : c_filter (comps s 2) 12%nat = false) by (vm_compute; reflexivity).
  assert (I1 : items (fst (exec 19 (ORescan 0) s)) 0 = [14]%nat) by (vm_compute; reflexivity).
  assert (F1 : map (fun c => c_fitem (comps (fst (exec 19 (ORescan 0) s)) c)) [0; 1; 2; 3; 4]%nat = [None; Some 12%nat; None; None; None]) by (vm_compute; reflexivity).
  generalize dependent (fst (exec 19 (ORescan 0) s)). generalize dependent s. intros s I0 T0 A1 A2 s' I1 F1.
  split; [rewrite I0; cbn; auto|]. split; [rewrite I1; cbn; intros [X|[]]; discriminate|].
  split. { injection F1 as X0 X1 X2 X3 X4. intros x L. destruct x as [|[|[|[|[|]]]]]; try lia; congruence. }
  intros p q g [B _ _ _ Q G N _]. cbn in Q. subst q.
  assert (GV : forall i, i = 11%nat \/ i = 12%nat -> In (1%nat, i, 0%nat) g).
  { intros i Hi. assert (X : In (i, 0%nat) (map ik g)).
    { apply cnt2_in. specialize (B 0%nat i). rewrite I0, I1 in B. cbn in B. destruct Hi as [-> | ->]; cbn in B; lia. }
    apply in_map_iff in X. destruct X as ([[d a] b] & X & I). unfold ik in X. cbn in X. injection X as -> ->.
    destruct (G _ _ _ I) as ([(W1 & W2)|(ks & f & key & rp & fl & fp & u & cap & X & _)] & _); [|discriminate]. rewrite T0 in W1. cbn in W1, W2.
    destruct W1 as [<-|[<-|[]]]; auto. destruct Hi as [-> | ->]; congruence. }
  pose proof (GV 11%nat (or_introl eq_refl)) as G1. pose proof (GV 12%nat (or_intror eq_refl)) as G2.
  apply in_split in G1. destruct G1 as (l1 & l2 & ->). rewrite map_app in N. cbn in N. apply NoDup_remove_2 in N. apply N. rewrite <- map_app.
  assert (X : In (1%nat, 12%nat, 0%nat) (l1 ++ l2)). { apply in_app_iff in G2. apply in_app_iff. destruct G2 as [G2|[G2|G2]]; auto. discriminate. }
  apply in_map_iff. exists (1, 12, 0)%nat. auto.
Qed.

(** ** C28 *)
Lemma reachable_reach : forall s, reachable s -> reach s.
Proof.
  intros s (t0 & R & sv & kc & hp & y & d & _ & H). exists t0, R, sv, kc, hp, y, d. induction H as [|a a1 o a2 n r H IH P W E C]; [constructor|].
  apply runs_step with (s1 := a1) (o := o); [exact IH | exact Logic.I |]. split; [exact W|]. exists n, r. split; [exact E|]. intros e Z. apply (C e Z).
Qed.
(** the number of items *)
Definition contents (s : env) (k : nat) : Q := inject_Z (Z.of_nat (length (items s k))).
Lemma contents_len : forall s k, contents s k = xlen (qs s (QStore k)).
Proof. intros. unfold contents, items, xlen. rewrite map_length. auto. Qed.
(** at all times, also after calls that failed, the available quantity is capacity minus number of items *)
Theorem C28_available : forall s k, reach s -> xeq (kmav s k) (xsubq (kcap s k) (contents s k)).
Proof.
  intros s k (t0 & R & sv & kc & hp & y & d & H). rewrite contents_len. revert k. change (AV s). remember (init t0 R sv kc hp y d) as s0. induction H as [|s s1 o s2 H IH P (W & n & r & E & C)].
  - subst. apply AV_init.
  - apply (AV_exec n o s1 s2 r); auto.
Qed.
(** an item that comes into a store finds a place: when any call, failed or not, brings an item in, the contents is within the capacity *)
Theorem C28_entry : forall s n o s' r i k, reach s -> exec n o s = (s', r) -> In i (items s' k) -> ~ In i (items s k) -> xle (Fin (contents s' k)) (kcap s' k).
Proof.
  intros s n o s' r i k R E I N. rewrite contents_len.
  assert (V : AV s) by (intros j; rewrite <- contents_len; apply C28_available; auto).
  destruct (AV_exec n o s s' r V E) as (_ & B & _). destruct (B k) as [(f & F)|C]; auto. destruct N. unfold items in *. rewrite F in I. apply in_map_iff in I. destruct I as (x & X & I). apply filter_In in I.
  apply in_map_iff. exists x. tauto.
Qed.
(** as long as the capacity is not made smaller, a store never holds more than its capacity *)
Definition not_smaller (s : env) (o : op) : Prop := match o with OStoreCap k cap => xle (kcap s k) cap | _ => True end.
Theorem C28_never_over : forall t0 R sv kc hp y d s k, (forall j, xle (Fin 0) (kc j)) -> runs not_smaller (init t0 R sv kc hp y d) s -> xle (Fin (contents s k)) (kcap s k).
Proof.
  intros t0 R sv kc hp y d s k H K. rewrite contents_len. revert k. change (forall k, capok s k).
  assert (X : AV s /\ forall k, capok s k); [|apply X]. remember (init t0 R sv kc hp y d) as s0. induction K as [|s s1 o s2 K IH P (W & n & r & E & C)].
  - subst. split; [apply AV_init|]. intros k. apply H.
  - destruct (IH Heqs0) as (V & B). destruct (AV_exec n o s1 s2 r V E) as (V2 & N & KC). split; auto. intros k. destruct (N k) as [(f & F)|Y]; auto.
    unfold capok. rewrite F. apply xle_trans with (kcap s1 k).
    + eapply xle_trans; [|apply B]. cbn. apply xlen_le. apply filter_len.
    + rewrite KC. destruct o; try apply xle_refl. unfold upd. cbn in P. destruct (Nat.eqb_spec k k0) as [->|]; [auto | apply xle_refl].
Qed.
(** entering a full store fails, nothing changes *)
Theorem C28_full_raises : forall s n i k w, ~ In i (items s k) -> pos_ok w (qs s (QStore k)) = true -> xlt (kcap s k) (Fin (contents s k + 1)) ->
  exec (S n) (OEnterStore i k w) s = (s, Er QueueFull).
Proof.
  intros s n i k w N P L. cbn [exec]. rewrite enter_step. assert (X : inq i (qs s (QStore k)) = false) by (apply inq_false; exact N). rewrite X, P. cbn [negb].
  assert (Y : xltb (xsubq (kcap s k) (xlen (qs s (QStore k)) + 1)) (Fin 0) = true). { rewrite contents_len in L. apply xltb_iff. destruct (kcap s k) as [c|]; cbn in *; [lra | contradiction]. }
  rewrite Y. reflexivity.
Qed.
(** to_store goes into the first store with room; if there is none, the component waits for all of them and nothing comes in *)
Theorem C28_to_store : forall s n c ks i rp p fl fp u cap s', reachable s -> let o := OToStore c ks i rp p fl fp u cap in wf s o -> exec n o s = (s', Ok tt) ->
  (exists l1 k l2, ks = l1 ++ k :: l2 /\ (forall k', In k' l1 -> ~ xlt (Fin 0) (kmav s k')) /\ xlt (Fin 0) (kmav s k) /\ (forall j, ~ In c (putters s' j)) /\
     (In i (items s' k) \/ exists d, In d (takers s k) /\ c_filter (comps s d) i = true /\ c_fitem (comps s' d) = Some i)) \/
  ((forall k, In k ks -> ~ xlt (Fin 0) (kmav s k) /\ In c (putters s' k)) /\ (forall k, items s' k = items s k) /\ c_status (comps s' c) = Requesting).
Proof.
  intros s n c ks i rp p fl fp u cap s' R o W E. pose proof (reach_p_QI _ _ R) as Q. pose proof (reach_p_one _ _ R) as O. cbn [o exec] in E.
  assert (NX : forall v, xltb (Fin 0) v = false -> ~ xlt (Fin 0) v). { intros v X Y. apply xltb_iff in Y. congruence. }
  destruct (to_ok _ _ _ _ _ _ _ _ _ _ _ _ Q O W E) as [(l1 & k & l2 & s1 & s2 & EK & L1 & K1 & B1 & R1 & U1 & F & EN & B2 & U2 & GF)|(L & (B1 & B2) & GF & TI & _ & _ & ST & PU)].
  - left. exists l1, k, l2. split; auto. split; [auto|]. split; [apply xltb_iff; auto|]. split; [apply U2|].
    rewrite (bu_i _ _ _ B2). destruct EN as [T -> | d s3 T L R3 HA].
    + left. apply items_inn; [apply F | auto].
    + right. apply find_some in T. destruct T as (T1 & T2). assert (D : d <> c) by (intros ->; apply (proj1 U1 k); auto). exists d.
      split; [apply (bu_t _ _ _ B1); auto|]. split; [rewrite <- (bu_c _ _ _ B1); auto|]. rewrite (bu_c _ _ _ B2), (ha_self _ _ _ _ HA) by auto. reflexivity.
  - right. split; auto.
Qed.
Example C28_case : let s := stp any envk shop2 in reach s /\ xeqb (kcap s 0) (Fin 2) = true /\ contents s 0 == 2 /\ xeqb (kmav s 0) (Fin 0) = true /\ exec 19 (OEnterStore 15 0 PTail) s = (s, Er QueueFull) /\
  c_status (comps s 3) = Requesting /\ In 3%nat (putters s 0).
Proof.
  intros s. split.
  { assert (R : reachable s) by (apply stp_reach with (P := fun _ _ => True); auto using rs0_fresh; vm_compute; reflexivity).
    apply reachable_reach; auto. }
  split; [vm_compute; reflexivity|]. split; [vm_compute; reflexivity|]. split; [vm_compute; reflexivity|].
  split; [|split; [vm_compute; reflexivity | vm_compute; auto]]. apply C28_full_raises; [| vm_compute; reflexivity | apply xltb_iff; vm_compute; reflexivity].
  assert (I : items s 0 = [11; 12]%nat) by (vm_compute; reflexivity). rewrite I. cbn. intros [X|[X|[]]]; discriminate.
Qed.

(** ** C29 *)
Lemma find_first : forall A (f : A -> bool) l a, find f l = Some a <-> exists l1 l2, l = l1 ++ a :: l2 /\ f a = true /\ forall x, In x l1 -> f x = false.
Proof.
  induction l as [|b l IH]; intros a; cbn.
  - split; [discriminate|]. intros ([|] & l2 & X & _); discriminate.
  - destruct (f b) eqn:F.
    + split; [intros X; injection X as <-; exists [], l; cbn; intuition|]. intros ([|c l1] & l2 & X & Y & Z); cbn in X; injection X as <- ->; auto. rewrite (Z b) in F; cbn; auto. discriminate.
    + rewrite IH. split; intros (l1 & l2 & X & Y & Z).
      * exists (b :: l1), l2. rewrite X. split; auto. split; auto. intros x [<-|I]; auto.
      * destruct l1 as [|c l1]; cbn in X; injection X as <- ->; [congruence|]. exists l1, l2. split; auto. split; auto. intros x I. apply Z. cbn. auto.
Qed.
(** an item that enters a store goes to the first requester in the queue that accepts it *)
Theorem C29_first_taker : forall s n i k w s' l1 d l2, reachable s -> exec n (OEnterStore i k w) s = (s', Ok tt) ->
  takers s k = l1 ++ d :: l2 -> (forall x, In x l1 -> c_filter (comps s x) i = false) -> c_filter (comps s d) i = true ->
  c_fitem (comps s' d) = Some i /\ c_status (comps s' d) = Scheduled /\ c_sched (comps s' d) = Fin (now s) /\ now s' = now s /\ (forall j, ~ In d (takers s' j)) /\
  (forall x, x <> d -> c_fitem (comps s' x) = c_fitem (comps s x) /\ forall j, In x (takers s' j) <-> In x (takers s j)).
Proof.
  intros s n i k w s' l1 d l2 R E T L F. pose proof (rdy_of _ (reach_p_QI _ _ R) (reach_p_one _ _ R)) as RD. cbn [exec] in E.
  assert (TK : taker s k i = Some d). { apply find_first. exists l1, l2. auto. }
  destruct (enter_cases _ _ _ _ _ _ _ RD E) as [(_ & FT & EN & _)|(e & X & _)]; [|discriminate].
  destruct EN as [T0 _ | d' s2 T0 LV R2 HA]; [congruence|]. rewrite TK in T0. injection T0 as <-.
  assert (N2 : now s2 = now s). { destruct LV as [_ -> | w0 i0 _ _ _ _ _ FR]; [reflexivity|]. rewrite (fd_now _ _ _ FR). reflexivity. }
  rewrite (ha_self _ _ _ _ HA), (ha_now _ _ _ _ HA). cbn [c_fitem c_status c_sched w_onev w_sched w_status w_fitem]. rewrite N2. split; auto. split; auto. split; auto. split; auto.
  assert (R1 : rdy (inn k i w s)) by (apply rdy_inn; [apply FT | apply FT | auto]). assert (I1 : In i (items (inn k i w s) k)) by (apply items_inn; [apply FT | auto]).
  destruct (tr_leaves _ _ _ _ R1 I1 LV) as (p & T1 & _). pose proof (tr_app _ _ _ _ _ _ _ _ _ (tr_inn s k i w RD FT) T1) as T2. cbn [app] in T2.
  assert (D2 : In d (takers s2 k)). { rewrite (takers_leaves _ _ _ _ _ LV). apply find_some in TK. apply TK. }
  assert (T3 : tr s ((None, i, k) :: p) [] [(d, i, k)] s'). { eapply tr_hand; eauto. rewrite (t_flt _ _ _ _ _ T2). auto. }
  split; [eapply (t_give _ _ _ _ _ T3); cbn; auto|]. intros x N. apply (t_goth _ _ _ _ _ T3). cbn. intros [X|[]]. auto.
Qed.
(** when nobody accepts it, it stays in the store *)
Theorem C29_no_taker : forall s n i k w s', reachable s -> exec n (OEnterStore i k w) s = (s', Ok tt) -> (forall x, In x (takers s k) -> c_filter (comps s x) i = false) ->
  In i (items s' k) /\ comps s' = comps s /\ forall q, q <> QStore k -> qs s' q = qs s q.
Proof.
  intros s n i k w s' R E L. pose proof (rdy_of _ (reach_p_QI _ _ R) (reach_p_one _ _ R)) as RD. cbn [exec] in E.
  destruct (enter_cases _ _ _ _ _ _ _ RD E) as [(_ & FT & EN & _)|(e & X & _)]; [|discriminate].
  destruct EN as [T0 -> | d' s2 T0 LV R2 HA]; [|apply find_some in T0; destruct T0 as (A & B); rewrite L in B by auto; discriminate].
  split; [apply items_inn; [apply FT | auto]|]. split; [reflexivity|]. intros q N. apply qs_inn; auto.
Qed.
(** when an item leaves, the first component waiting to put something gets the room, and its item goes in *)
Theorem C29_first_putter : forall s n i k s' w l j, reachable s -> exec n (OLeaveStore i k) s = (s', Ok tt) -> putters s k = w :: l -> c_titem (comps s w) = Some j ->
  xlt (Fin (contents s k - 1)) (kcap s k) ->
  In j (items s' k) /\ c_status (comps s' w) = Scheduled /\ c_sched (comps s' w) = Fin (now s) /\ (forall k', ~ In w (putters s' k')) /\
  (forall x, x <> w -> forall k', In x (putters s' k') <-> In x (putters s k')).
Proof.
  intros s n i k s' w l j R E P TI RM. pose proof (rdy_of _ (reach_p_QI _ _ R) (reach_p_one _ _ R)) as RD. cbn [exec] in E.
  destruct (leave_ok _ _ _ _ _ RD E) as (I & L & R2 & _). destruct L as [D -> | w0 i0 H1 H2 H3 H4 H5 FR].
  - exfalso. destruct D as [D|D]; [|congruence]. apply xltb_false_iff in D.
    assert (C : contents s k == xlen (qs (out k i s) (QStore k)) + 1).
    { rewrite contents_len, qs_out_k. unfold items in I. pose proof (ry_nd _ RD (QStore k)) as ND. apply xlen_S.
      clear - I ND. revert I ND. generalize (qs s (QStore k)). intros m. induction m as [|(a, b) m IH]; [intros []|]. cbn [map fst]. intros [->|I] ND; inversion ND; subst.
        - unfold adel. cbn. rewrite Nat.eqb_refl. cbn. fold (adel i m). rewrite adel_id by auto. auto.
        - unfold adel in *. cbn. destruct (Nat.eqb_spec i a) as [->|]; [contradiction|]. cbn. f_equal. apply IH; auto. }
    unfold room in D. change (kcap (out k i s)) with (kcap s) in D. destruct (kcap s k) as [c|]; cbn in *; [lra | contradiction].
  - rewrite P in H2. cbn in H2. injection H2 as <-. rewrite TI in H3. injection H3 as <-.
    assert (WK : In w (putters s k)) by (rewrite P; cbn; auto).
    rewrite (items_freed _ _ _ _ FR). split; [apply items_inn; [apply H4 | auto]|]. rewrite (fd_self _ _ _ FR). split; auto. split; auto.
    assert (Q : forall k', putters (inn k j (PSorted (c_tprio (comps s w))) (out k i s)) k' = putters s k') by (intros k'; unfold putters; rewrite qs_inn by discriminate; rewrite qs_out by discriminate; auto).
    split.
    + intros k' X. apply (putters_freed _ _ _ _ _ FR) in X. destruct X as (X & Y). rewrite Q in X. apply Y. split; auto. apply (ry_t _ RD w k k' WK). auto.
    + intros x N k'. rewrite (putters_freed _ _ _ _ _ FR), Q. intuition.
Qed.
(** from_store without key takes the first accepted item of the first store that has one *)
Lemma find_plain : forall s f ks k0 i k, find_item s f None None ks k0 = (Some i, k) ->
  exists l1 l2, ks = l1 ++ k :: l2 /\ (forall k' j, In k' l1 -> In j (items s k') -> f j = false) /\ find f (items s k) = Some i.
Proof.
  induction ks as [|k1 t IH]; intros k0 i k E; cbn [find_item] in E; [discriminate|]. change (map fst (qs s (QStore k1))) with (items s k1) in E. destruct (find f (items s k1)) as [c|] eqn:X.
  - injection E as <- <-. exists [], t. split; auto. split; auto. intros k' j [].
  - destruct (IH _ _ _ E) as (l1 & l2 & A & B & C). exists (k1 :: l1), l2. rewrite A. split; auto. split; auto. intros k' j [<-|K] J; [apply (find_none _ _ X); auto | eauto].
Qed.
Theorem C29_from_store : forall s n c ks f rp fl fp u cap s' i, reachable s -> exec n (OFromStore c ks f None rp fl fp u cap) s = (s', Ok tt) -> c_fitem (comps s' c) = Some i ->
  exists ks1 k ks2 l1 l2, ks = ks1 ++ k :: ks2 /\ items s k = l1 ++ i :: l2 /\ f i = true /\ (forall j, In j l1 -> f j = false) /\ (forall k' j, In k' ks1 -> In j (items s k') -> f j = false).
Proof.
  intros s n c ks f rp fl fp u cap s' i R E G. cbn [exec] in E.
  destruct (from_ok _ _ _ _ _ _ _ _ _ _ _ _ (reach_p_QI _ _ R) (reach_p_one _ _ R) E) as [(i' & k & p & s1 & s2 & FI & IN & B1 & R1 & U1 & T & OW & B2 & GF & U2)|(_ & B & GF)]; [|congruence].
  assert (i' = i) by congruence. subst i'. destruct (find_plain _ _ _ _ _ _ FI) as (a & b & A & B & C). apply find_first in C. destruct C as (l1 & l2 & C & D & X).
  exists a, k, b, l1, l2. auto.
Qed.
(** it waits only when no store has an accepted item *)
Theorem C29_from_store_waits : forall s n c ks f key rp fl fp u cap s', reachable s -> exec n (OFromStore c ks f key rp fl fp u cap) s = (s', Ok tt) -> c_fitem (comps s' c) = None ->
  forall k j, In k ks -> In j (items s k) -> f j = false.
Proof.
  intros s n c ks f key rp fl fp u cap s' R E G. cbn [exec] in E.
  destruct (from_ok _ _ _ _ _ _ _ _ _ _ _ _ (reach_p_QI _ _ R) (reach_p_one _ _ R) E) as [(i' & k & p & s1 & s2 & FI & IN & B1 & R1 & U1 & T & OW & B2 & GF & U2)|(N & B & GF)]; [congruence|].
  apply find_item_none in N. apply N.
Qed.
(** the first item with the lowest key *)
Definition lowest (f : nat -> bool) (kf : nat -> Q) (l : list nat) (i : nat) : Prop :=
  exists l1 l2, l = l1 ++ i :: l2 /\ f i = true /\ (forall j, In j l1 -> f j = true -> kf i < kf j) /\ (forall j, In j l2 -> f j = true -> kf i <= kf j).
Lemma best_key_acc : forall f kf l b i, f b = true -> best_key f kf (Some b) l = Some i ->
  (i = b /\ forall j, In j l -> f j = true -> kf b <= kf j) \/ (kf i < kf b /\ lowest f kf l i).
Proof.
  induction l as [|c t IH]; intros b i FB E; cbn [best_key] in E.
  - injection E as <-. left. split; auto. intros j [].
  - destruct (f c) eqn:F.
    + destruct (Qltb (kf c) (kf b)) eqn:L.
      * apply Qltb_iff in L. destruct (IH c i F E) as [(-> & H)|(A & l1 & l2 & B & C & D & G)].
        -- right. split; auto. exists [], t. split; auto. split; auto. split; auto. intros j [].
        -- right. split; [lra|]. exists (c :: l1), l2. rewrite B. split; auto. split; auto. split; auto. intros j [<-|J] FJ; auto.
      * apply Qltb_false_iff in L. destruct (IH b i FB E) as [(-> & H)|(A & l1 & l2 & B & C & D & G)].
        -- left. split; auto. intros j [<-|J] FJ; auto.
        -- right. split; auto. exists (c :: l1), l2. rewrite B. split; auto. split; auto. split; auto. intros j [<-|J] FJ; auto. lra.
    + destruct (IH b i FB E) as [(-> & H)|(A & l1 & l2 & B & C & D & G)].
      * left. split; auto. intros j [<-|J] FJ; [congruence | auto].
      * right. split; auto. exists (c :: l1), l2. rewrite B. split; auto. split; auto. split; auto. intros j [<-|J] FJ; [congruence | auto].
Qed.
Lemma best_key_lowest : forall f kf l i, best_key f kf None l = Some i -> lowest f kf l i.
Proof.
  induction l as [|c t IH]; intros i E; cbn [best_key] in E; [discriminate|]. destruct (f c) eqn:F.
  - destruct (best_key_acc _ _ _ _ _ F E) as [(-> & H)|(A & l1 & l2 & B & C & D & G)].
    + exists [], t. split; auto. split; auto. split; auto. intros j [].
    + exists (c :: l1), l2. rewrite B. split; auto. split; auto. split; auto. intros j [<-|J] FJ; auto.
  - destruct (IH i E) as (l1 & l2 & B & C & D & G). exists (c :: l1), l2. rewrite B. split; auto. split; auto. split; auto. intros j [<-|J] FJ; [congruence | auto].
Qed.
Lemma best_key_app : forall f kf l m b, best_key f kf b (l ++ m) = best_key f kf (best_key f kf b l) m.
Proof. induction l as [|c t IH]; intros m b; cbn [best_key app]; auto. destruct (f c); apply IH. Qed.
Lemma last_irr : forall (l : list nat) a b, l <> [] -> last l a = last l b.
Proof. induction l as [|x [|y l] IH]; intros a b N; [congruence | reflexivity |]. apply (IH a b). discriminate. Qed.
Lemma find_keyed : forall s f kf ks b k0, find_item s f (Some kf) b ks k0 = (best_key f kf b (flat_map (items s) ks), last ks k0).
Proof.
  induction ks as [|k t IH]; intros b k0; cbn [find_item flat_map]; auto. rewrite best_key_app, IH. f_equal. destruct t as [|k1 t]; auto.
  change (last (k :: k1 :: t) k0) with (last (k1 :: t) k0). apply last_irr. discriminate.
Qed.
(** with key and one store: the accepted item with the lowest key *)
Theorem C29_key : forall s n c k f kf rp fl fp u cap s' i, reachable s -> exec n (OFromStore c [k] f (Some kf) rp fl fp u cap) s = (s', Ok tt) -> c_fitem (comps s' c) = Some i -> lowest f kf (items s k) i.
Proof.
  intros s n c k f kf rp fl fp u cap s' i R E G. cbn [exec] in E.
  destruct (from_ok _ _ _ _ _ _ _ _ _ _ _ _ (reach_p_QI _ _ R) (reach_p_one _ _ R) E) as [(i' & k1 & p & s1 & s2 & FI & IN & B1 & R1 & U1 & T & OW & B2 & GF & U2)|(_ & B & GF)]; [|congruence].
  assert (i' = i) by congruence. subst i'. rewrite find_keyed in FI. injection FI as FI _. cbn [flat_map] in FI. rewrite app_nil_r in FI. apply best_key_lowest; auto.
Qed.
(** with key and several stores: it only works when the item with the lowest key happens to be in the last of the stores *)
Theorem C29_key_last_partial : forall s n c ks f kf rp fl fp u cap s' i, reachable s -> exec n (OFromStore c ks f (Some kf) rp fl fp u cap) s = (s', Ok tt) -> c_fitem (comps s' c) = Some i ->
  lowest f kf (flat_map (items s) ks) i /\ In i (items s (last ks 0%nat)).
Proof.
  intros s n c ks f kf rp fl fp u cap s' i R E G. cbn [exec] in E.
  destruct (from_ok _ _ _ _ _ _ _ _ _ _ _ _ (reach_p_QI _ _ R) (reach_p_one _ _ R) E) as [(i' & k1 & p & s1 & s2 & FI & IN & B1 & R1 & U1 & T & OW & B2 & GF & U2)|(_ & B & GF)]; [|congruence].
  assert (i' = i) by congruence. subst i'. rewrite find_keyed in FI. injection FI as FI <-. split; auto. apply best_key_lowest; auto.
Qed.
(** items 11 and 12 in store 0 (room 2), 13 in store 1; 2 calls from_store([0, 1], key) *)
Definition shop3 : list op := [mk 1; mk 2; go; OStep; to 1 [0%nat] 11; OStep; to 2 [0%nat] 12; OStep; to 1 [1%nat] 13; OStep].
Definition keyq (i : nat) : Q := inject_Z (Z.of_nat (20 - i)).
Definition getk (c : nat) (ks : list nat) (kf : nat -> Q) : op := OFromStore c ks (fun _ => true) (Some kf) (Fin 0) SNone (Fin 0) false None.
Lemma from_wrong : forall n s c ks f key rp fl fp u cap i k, c_status (comps s c) = Current -> ks <> [] -> length (nodup Nat.eq_dec ks) = length ks -> fl <> SBoth ->
  find_item s f key None ks 0%nat = (Some i, k) -> ~ In i (items s k) -> from_store (S n) c ks f key rp fl fp u cap s = (m_comp c (w_failed false) s, Er ValueErr).
Proof.
  intros n s c ks f key rp fl fp u cap i k ST K ND FL FI N. unfold from_store.
  assert (B : negb (nonnil ks) || negb (Nat.eqb (length (nodup Nat.eq_dec ks)) (length ks)) = false). { rewrite ND, Nat.eqb_refl. destruct ks; [congruence | reflexivity]. }
  rewrite B. rewrite (bind_ok _ _ _ _ s s tt) by reflexivity. rewrite (bind_ok _ _ _ _ s s Current) by (unfold stat, get; rewrite ST; reflexivity).
  rewrite (bind_ok _ _ _ _ s s tt) by reflexivity.
  assert (FT : exists t, fail_time fl s = (s, Ok t)) by (destruct fl; [eexists; reflexivity | eexists; reflexivity | eexists; reflexivity | congruence]). destruct FT as (t & FT). rewrite (bind_ok _ _ _ _ s s t FT).
  rewrite (bind_ok _ _ _ _ s (m_comp c (w_failed false) s) tt) by reflexivity. rewrite (bind_ok _ _ _ _ (m_comp c (w_failed false) s) (m_comp c (w_failed false) s) (Some i, k)).
  - apply bind_er. apply leave_raises. exact N.
  - unfold get. f_equal. f_equal. rewrite <- FI. apply find_item_ext. reflexivity.
Qed.
Theorem C29_key_refuted : exists s o kf ks i, o = getk 2 ks kf /\ reachable s /\ wf s o /\ lowest (fun _ => true) kf (flat_map (items s) ks) i /\
  forall n, exists s', exec (S n) o s = (s', Er ValueErr).
Proof.
  set (s := stp any envk shop3). set (kf := fun i => inject_Z (Z.of_nat i)). exists s, (getk 2 [0; 1]%nat kf), kf, [0; 1]%nat, 11%nat.
  assert (R : reachable s) by (apply stp_reach with (P := fun _ _ => True); auto using rs0_fresh; vm_compute; reflexivity).
  assert (W : wf s (getk 2 [0; 1]%nat kf)) by (apply wfb_wf; vm_compute; reflexivity).
  assert (I : flat_map (items s) [0; 1]%nat = [11; 12; 13]%nat) by (vm_compute; reflexivity).
  assert (ST : c_status (comps s 2) = Current) by (vm_compute; reflexivity). assert (I1 : items s 1 = [13]%nat) by (vm_compute; reflexivity). clearbody s.
  split; auto. split; auto. split; auto.
  split. { rewrite I. exists [], [12; 13]%nat. split; auto. split; auto. split; [intros j []|]. intros j [<-|[<-|[]]] _; vm_compute; discriminate. }
  intros n. exists (m_comp 2 (w_failed false) s). unfold getk. cbn [exec]. apply from_wrong with (i := 11%nat) (k := 1%nat).
  - exact ST.
  - discriminate.
  - reflexivity.
  - discriminate.
  - rewrite find_keyed, I. reflexivity.
  - rewrite I1. cbn. intros [X|[]]. discriminate.
Qed.
Example C29_case : let s := stp any envk shop2 in let o := OEnterStore 13 1 (PSorted (Fin 0)) in let s' := fst (exec 19 o s) in
  reachable s /\ exec 19 o s = (s', Ok tt) /\ takers s 1 = [2%nat] /\ takers s 0 = [1; 2]%nat /\ takers s' 0 = [1]%nat /\ c_filter (comps s 2) 13%nat = true /\ c_fitem (comps s' 2) = Some 13%nat /\ items s' 1 = [].
Proof.
  intros s o s'. split; [apply stp_reach with (P := fun _ _ => True); auto using rs0_fresh; vm_compute; reflexivity|].
  split; [|repeat split; vm_compute; reflexivity]. assert (E : snd (exec 19 o s) = Ok tt) by (vm_compute; reflexivity). unfold s'. rewrite <- E. apply surjective_pairing.
Qed.
Example C29_case_key : let s := stp any envk shop3 in let o := getk 2 [1; 0]%nat keyq in let o' := getk 2 [0]%nat keyq in
  reachable s /\ wf s o /\ snd (exec 19 o s) = Er ValueErr /\ snd (exec 19 o' s) = Ok tt /\ c_fitem (comps (fst (exec 19 o' s)) 2) = Some 12%nat /\ items s 0 = [11; 12]%nat.
Proof.
  intros s o o'. split; [apply stp_reach with (P := fun _ _ => True); auto using rs0_fresh; vm_compute; reflexivity|].
  split; [apply wfb_wf; vm_compute; reflexivity|]. repeat split; vm_compute; reflexivity.
Qed.
Example C29_case_putter : let s := stp any envk shop2 in let s' := fst (exec 19 (OLeaveStore 11 0) s) in
  reachable s /\ exec 19 (OLeaveStore 11 0) s = (s', Ok tt) /\ putters s 0 = [3%nat] /\ c_titem (comps s 3) = Some 14%nat /\ xlt (Fin (contents s 0 - 1)) (kcap s 0).
Proof.
  intros s s'. split; [apply stp_reach with (P := fun _ _ => True); auto using rs0_fresh; vm_compute; reflexivity|].
  split; [|split; [vm_compute; reflexivity|]; split; [vm_compute; reflexivity|]; apply xltb_iff; vm_compute; reflexivity]. assert (E : snd (exec 19 (OLeaveStore 11 0) s) = Ok tt) by (vm_compute; reflexivity). unfold s'. rewrite <- E. apply surjective_pairing.
Qed.

(** ** C30 *)
(** taking item i out of store k makes room for the item of the first component in the queue for space, and somebody waits for that item *)
Definition circular (s : env) (k i : nat) : Prop :=
  exists w j l d, putters s k = w :: l /\ c_titem (comps s w) = Some j /\ (forall x, In x (items s k) -> x = i \/ x <> j) /\ xle (Fin (contents s k)) (kcap s k) /\
    In d (takers s k) /\ c_filter (comps s d) j = true.
Lemma out_contents : forall s k i, rdy s -> In i (items s k) -> xlen (adel i (qs s (QStore k))) + 1 == contents s k.
Proof.
  intros s k i RD I. rewrite contents_len. symmetry. apply xlen_S. pose proof (ry_nd _ RD (QStore k)) as ND. unfold items in I. clear - I ND. revert I ND.
  generalize (qs s (QStore k)). intros m. induction m as [|(a, b) m IH]; [intros []|]. cbn [map fst]. intros [->|I] ND; inversion ND; subst.
  - unfold adel. cbn. rewrite Nat.eqb_refl. cbn. fold (adel i m). rewrite adel_id by auto. auto.
  - unfold adel in *. cbn. destruct (Nat.eqb_spec i a) as [->|]; [contradiction|]. cbn. f_equal. apply IH; auto.
Qed.
Lemma circular_iff : forall s k i, rdy s -> In i (items s k) -> circular s k i <-> endless s k i.
Proof.
  intros s k i RD I. pose proof (out_contents s k i RD I) as C.
  assert (X : xltb (xsubq (kcap s k) (xlen (adel i (qs s (QStore k))) + 1)) (Fin 0) = false <-> xle (Fin (contents s k)) (kcap s k)).
  { rewrite xltb_false_iff. destruct (kcap s k) as [c|]; cbn; [split; lra | tauto]. }
  assert (IO : forall j, In j (items (out k i s) k) <-> In j (items s k) /\ j <> i).
  { intros j. unfold items. rewrite qs_out_k. unfold adel. rewrite !in_map_iff. split.
    - intros (x & <- & J). apply filter_In in J. destruct J as (J1 & J2). apply negb_true_iff, Nat.eqb_neq in J2. split; eauto.
    - intros ((x & <- & J) & N). exists x. split; auto. apply filter_In. split; auto. apply negb_true_iff, Nat.eqb_neq. auto. }
  split.
  - intros (w & j & l & d & P & T & F & K & D & A). exists w, j. rewrite P. split; auto. split; auto. split; [rewrite IO; intros (J1 & J2); destruct (F j J1); auto|]. split; [apply X; auto|].
    intros N. unfold taker in N. pose proof (find_none _ _ N d D) as Y. cbn in Y. congruence.
  - intros (w & j & P & T & F & K & N). destruct (putters s k) as [|w' l] eqn:PE; [discriminate|]. cbn in P. injection P as <-. destruct (taker s k j) as [d|] eqn:TK; [|congruence]. apply find_some in TK.
    exists w', j, l, d. split; auto. split; auto. split; [intros x J; destruct (Nat.eq_dec x i); auto; right; intros ->; apply F, IO; auto|]. split; [apply X; auto | exact TK].
Qed.
(** leave returns (or raises) with three levels of calls at most, except in this situation, in which it never returns *)
Theorem C30_leave : forall s i k n, reachable s -> (n >= 2)%nat -> snd (exec n (OLeaveStore i k) s) = Er OutOfFuel <-> (In i (items s k) /\ circular s k i).
Proof.
  intros s i k n R L. pose proof (rdy_of _ (reach_p_QI _ _ R) (reach_p_one _ _ R)) as RD. cbn [exec].
  destruct (in_dec Nat.eq_dec i (items s k)) as [I|N].
  2: { destruct n as [|n]; [lia|]. rewrite leave_raises by auto. cbn. split; [discriminate | tauto]. }
  rewrite (circular_iff _ _ _ RD I). split.
  - intros E. split; auto. destruct (item_leave n k i s) as (s' & r) eqn:X. destruct (leave_cases _ _ _ _ _ _ RD I X) as [(-> & _)|(e & -> & [Y|[Y|(_ & Y)]])]; auto; cbn in E; [discriminate | lia | congruence].
  - intros (_ & E). apply endless_leave; auto.
Qed.
(** the same for an item that enters: it must itself be accepted by a waiting component *)
Theorem C30_enter : forall s i k w n, reachable s -> (n >= 3)%nat -> snd (exec n (OEnterStore i k w) s) = Er OutOfFuel <->
  (fits s k i w /\ (exists d, In d (takers s k) /\ c_filter (comps s d) i = true) /\ circular (inn k i w s) k i).
Proof.
  intros s i k w n R L. pose proof (rdy_of _ (reach_p_QI _ _ R) (reach_p_one _ _ R)) as RD. cbn [exec].
  assert (TK : taker s k i <> None <-> exists d, In d (takers s k) /\ c_filter (comps s d) i = true).
  { split.
    - intros N. destruct (taker s k i) as [d|] eqn:T; [|congruence]. apply find_some in T. eauto.
    - intros (d & A & B) N. pose proof (find_none _ _ N d A) as Y. cbn in Y. congruence. }
  assert (CI : fits s k i w -> circular (inn k i w s) k i <-> endless (inn k i w s) k i).
  { intros F. apply circular_iff; [apply rdy_inn; [apply F | apply F | auto] | apply items_inn; [apply F | auto]]. }
  split.
  - intros E. destruct (item_enter n k i w s) as (s' & r) eqn:X. destruct (enter_cases _ _ _ _ _ _ _ RD X) as [(-> & _)|(e & -> & [Y|[(F & Y1 & Y2)|Y]])]; cbn in E; [discriminate | lia | | congruence].
    split; auto. split; [apply TK; auto | apply CI; auto].
  - intros (F & T & C). apply endless_enter; auto. split; [apply TK; auto | apply CI; auto].
Qed.
Theorem C30_no_putters : forall s i k w n, reachable s -> putters s k = [] -> (n >= 3)%nat ->
  snd (exec n (OLeaveStore i k) s) <> Er OutOfFuel /\ snd (exec n (OEnterStore i k w) s) <> Er OutOfFuel.
Proof.
  intros s i k w n R P L. split; intros E.
  - apply C30_leave in E; auto; [|lia]. destruct E as (_ & a & j & l & d & X & _). congruence.
  - apply C30_enter in E; auto. destruct E as (_ & _ & a & j & l & d & X & _). unfold putters in *. rewrite qs_inn in X by discriminate. congruence.
Qed.
(** the situation occurs: 1 waits for item 12, store 1 (room 1) holds 11, 2 waits to put 12; then 11 leaves *)
Definition shop4 : list op := [mk 1; mk 2; mk 3; go; OStep; from 1 [1%nat] (is 12); OStep; to 2 [1%nat] 11; OStep; to 3 [1%nat] 12].
Theorem C30_refuted : exists s i k, reachable s /\ wf s (OLeaveStore i k) /\ In i (items s k) /\ forall n, snd (exec n (OLeaveStore i k) s) = Er OutOfFuel.
Proof.
  set (s := stp any envk shop4). exists s, 11%nat, 1%nat.
  assert (R : reachable s) by (apply stp_reach with (P := fun _ _ => True); auto using rs0_fresh; vm_compute; reflexivity).
  assert (I : items s 1 = [11]%nat) by (vm_compute; reflexivity). assert (P : putters s 1 = [3]%nat) by (vm_compute; reflexivity). assert (T : takers s 1 = [1]%nat) by (vm_compute; reflexivity).
  assert (TI : c_titem (comps s 3) = Some 12%nat) by (vm_compute; reflexivity). assert (F : c_filter (comps s 1) 12%nat = true) by (vm_compute; reflexivity).
  assert (C : xle (Fin (contents s 1)) (kcap s 1)) by (apply xleb_iff; vm_compute; reflexivity).
  assert (W : wf s (OLeaveStore 11 1)) by (apply wfb_wf; vm_compute; reflexivity). clearbody s.
  split; auto. split; auto. split; [rewrite I; cbn; auto|]. intros n. pose proof (rdy_of _ (reach_p_QI _ _ R) (reach_p_one _ _ R)) as RD. cbn [exec].
  assert (IN : In 11%nat (items s 1)) by (rewrite I; cbn; auto). apply endless_leave; auto. apply circular_iff; auto.
  exists 3%nat, 12%nat, [], 1%nat. rewrite P, T, I. split; auto. split; auto. split; [intros x [<-|[]]; auto|]. split; auto. cbn. auto.
Qed.
Example C30_case : let s := stp any envk shop2 in reachable s /\ In 11%nat (items s 0) /\ putters s 0 = [3%nat] /\ takers s 0 = [1; 2]%nat /\ ~ circular s 0 11 /\ snd (exec 2 (OLeaveStore 11 0) s) = Ok tt.
Proof.
  intros s. assert (R : reachable s) by (apply stp_reach with (P := fun _ _ => True); auto using rs0_fresh; vm_compute; reflexivity).
  assert (E : snd (exec 2 (OLeaveStore 11 0) s) = Ok tt) by (vm_compute; reflexivity).
  split; auto. split; [vm_compute; auto|]. split; [vm_compute; reflexivity|]. split; [vm_compute; reflexivity|]. split; auto.
  intros C. assert (X : snd (exec 2 (OLeaveStore 11 0) s) = Er OutOfFuel). { apply C30_leave; auto. split; auto. vm_compute; auto. } congruence.
Qed.
Print Assumptions C27_conserved. Print Assumptions C27_history. Print Assumptions C27_one_place. Print Assumptions C27_rescan_refuted.
Print Assumptions C28_available. Print Assumptions C28_entry. Print Assumptions C28_never_over. Print Assumptions C28_full_raises. Print Assumptions C28_to_store.
Print Assumptions C29_first_taker. Print Assumptions C29_no_taker. Print Assumptions C29_first_putter. Print Assumptions C29_from_store. Print Assumptions C29_from_store_waits.
Print Assumptions C29_key. Print Assumptions C29_key_last_partial. Print Assumptions C29_key_refuted.
Print Assumptions C30_leave. Print Assumptions C30_enter. Print Assumptions C30_no_putters. Print Assumptions C30_refuted.
