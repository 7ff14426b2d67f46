(** Stores: no component waits for an item that is there, none waits to put an item while there is room. *)
From Coq Require Import QArith Lqa List Bool Arith ZArith Lia Permutation.
From Verif Require Import Base Kernel Wp KernelE KernelL KernelX KernelT KernelU KernelR KernelQ KernelP KernelA KernelC KernelG KernelV KernelW KernelY KernelZ KernelN PropRes PropStore.
Import ListNotations.
Open Scope Q_scope.

(** * What is to be shown of a store *)
(** nobody who waits in store [k] accepts an item that is in it *)
Definition no_missed (s : env) (k : nat) : Prop := forall d i, In d (takers s k) -> In i (items s k) -> c_filter (comps s d) i = false.
(** while somebody waits to put an item into store [k], there is no room in it *)
Definition no_idle (s : env) (k : nat) : Prop := putters s k <> [] -> xltb (Fin 0) (room s k) = false.

(** * Changes that keep both *)
Definition WA (s s' : env) : Prop :=
  (forall k d, In d (takers s' k) -> In d (takers s k) /\ c_filter (comps s' d) = c_filter (comps s d)) /\
  (forall k d i, In d (takers s' k) -> In i (items s' k) -> In i (items s k) \/ c_filter (comps s' d) i = false).
Definition WB (s s' : env) : Prop := kcap s' = kcap s /\ (forall k x, In x (putters s' k) -> In x (putters s k)) /\ forall k, no_idle s k -> no_idle s' k.
Lemma WA_po : preorder WA.
Proof.
  constructor; unfold WA; [split; auto|]. intros a b c (A & B) (C & D). split.
  - intros k d I. destruct (C k d I) as (I1 & E1). destruct (A k d I1) as (I2 & E2). split; auto. congruence.
  - intros k d i I J. destruct (D k d i I J) as [X|X]; auto. destruct (C k d I) as (I1 & E1). destruct (B k d i I1 X) as [Y|Y]; auto. right. rewrite E1. auto.
Qed.
Lemma WB_po : preorder WB.
Proof. constructor; unfold WB; [auto|]. intros a b c (A & B & C) (D & E & F). split; [congruence|]. split; auto. Qed.
Lemma WA_use : forall s s' k, WA s s' -> no_missed s k -> no_missed s' k.
Proof. intros s s' k (A & B) H d i D I. destruct (B k d i D I) as [X|X]; auto. destruct (A k d D) as (Y & ->). auto. Qed.
Lemma WA_same : forall s s', (forall k, takers s' k = takers s k) -> (forall k i, In i (items s' k) -> In i (items s k)) -> (forall x, c_filter (comps s' x) = c_filter (comps s x)) -> WA s s'.
Proof. intros s s' A B C. split; intros; auto. rewrite A in H. auto. Qed.
Lemma room_items : forall s s' k, kcap s' = kcap s -> items s' k = items s k -> room s' k = room s k.
Proof. intros s s' k A B. unfold room, xlen. rewrite A. unfold items in B. apply (f_equal (@length nat)) in B. rewrite !map_length in B. rewrite B. reflexivity. Qed.
Lemma WB_same : forall s s', kcap s' = kcap s -> (forall k x, In x (putters s' k) -> In x (putters s k)) -> (forall k, items s' k = items s k) -> WB s s'.
Proof.
  intros s s' A B C. split; auto. split; auto. intros k H N. rewrite (room_items s s' k A (C k)). apply H.
  intros Z. apply N. destruct (putters s' k) as [|x t] eqn:P; auto. specialize (B k x). rewrite P, Z in B. destruct B. left; auto.
Qed.
Lemma WA_but : forall d s s', but d s s' -> (forall k, ~ In d (takers s' k)) -> WA s s'.
Proof.
  intros d s s' [A B C D E] H. split.
  - intros k x I. assert (x <> d) by (intros ->; exact (H k I)). split; [apply C; auto | rewrite B; auto].
  - intros k x i I J. left. rewrite A in J. auto.
Qed.
Lemma WB_but : forall d s s', but d s s' -> kcap s' = kcap s -> (forall k, ~ In d (putters s' k)) -> WB s s'.
Proof. intros d s s' [A B C D E] K H. apply WB_same; auto. intros k x I. apply D; auto. intros ->. exact (H k I). Qed.

(** ** an item enters, an item leaves *)
Lemma filter_freed : forall s w s' x, freed s w s' -> c_filter (comps s' x) = c_filter (comps s x).
Proof. intros s w s' x F. destruct (Nat.eq_dec x w) as [->|N]; [rewrite (fd_self _ _ _ F); reflexivity | rewrite (fd_oth _ _ _ F x N); reflexivity]. Qed.
Lemma filter_handed : forall s d i s' x, handed s d i s' -> c_filter (comps s' x) = c_filter (comps s x).
Proof. intros s d i s' x F. destruct (Nat.eq_dec x d) as [->|N]; [rewrite (ha_self _ _ _ _ F); reflexivity | rewrite (ha_oth _ _ _ _ F x N); reflexivity]. Qed.
Lemma items_inn_o : forall k c w s j, j <> k -> items (inn k c w s) j = items s j.
Proof. intros. unfold items. rewrite qs_inn by congruence. reflexivity. Qed.
Lemma items_out_o : forall k c s j, j <> k -> items (out k c s) j = items s j.
Proof. intros. unfold items. rewrite qs_out by congruence. reflexivity. Qed.
Lemma taker_none : forall s k i d, taker s k i = None -> In d (takers s k) -> c_filter (comps s d) i = false.
Proof. intros s k i d T I. unfold taker in T. exact (find_none _ _ T d I). Qed.
Lemma WA_put : forall s k i w, pos_ok w (qs s (QStore k)) = true -> taker s k i = None -> WA s (inn k i w s).
Proof.
  intros s k i w P T. assert (TK : forall j, takers (inn k i w s) j = takers s j) by (intros; unfold takers; rewrite qs_inn by discriminate; reflexivity). split.
  - intros j d I. rewrite TK in I. auto.
  - intros j d x I J. rewrite TK in I. destruct (Nat.eq_dec j k) as [->|N]; [|rewrite items_inn_o in J by auto; auto].
    apply items_inn in J; auto. destruct J as [->|J]; auto. right. exact (taker_none _ _ _ _ T I).
Qed.
Lemma WA_leaves : forall k c s s', leaves k c s s' -> WA (out k c s) s'.
Proof.
  intros k c s s' [H ->|w i H1 H2 H3 H4 H5 H6]; [apply (po_refl _ WA_po)|]. apply (po_trans _ WA_po) with (inn k i (PSorted (c_tprio (comps s w))) (out k c s)).
  - apply WA_put; [apply H4|]. unfold taker, takers. rewrite qs_out by discriminate. exact H5.
  - apply WA_same; intros.
    + apply takers_freed with (1 := H6).
    + rewrite (items_freed _ _ _ _ H6) in H. exact H.
    + apply filter_freed with (1 := H6).
Qed.
Lemma WA_out : forall k c s, WA s (out k c s).
Proof.
  intros. apply WA_same; intros; auto.
  destruct (Nat.eq_dec k0 k) as [->|N]; [|rewrite items_out_o in H by auto; auto]. unfold items in *. rewrite qs_out_k in H. apply in_map_iff in H. destruct H as (x & <- & I). apply filter_In in I. apply in_map, I.
Qed.
Lemma WA_enters : forall k c w s s', fits s k c w -> enters k c w s s' -> WA s s'.
Proof.
  intros k c w s s' (F1 & F2 & F3) [T ->|d s2 T L R H]; [apply WA_put; auto|].
  apply (po_trans _ WA_po) with (out k c (inn k c w s)).
  { apply WA_same; intros; auto.
    destruct (Nat.eq_dec k0 k) as [->|N]; [|rewrite items_out_o, items_inn_o in H0 by auto; auto]. unfold items in *. rewrite qs_out_k, qs_inn_k, adel_ins_at in H0; auto. }
  apply (po_trans _ WA_po) with s2; [apply WA_leaves; auto|]. split.
  - intros j x I. apply (takers_handed _ _ _ _ _ _ H) in I. split; [apply I | apply filter_handed with (1 := H)].
  - intros j x i I J. rewrite (items_handed _ _ _ _ _ H) in J. auto.
Qed.
Lemma xltb_pos_dec : forall x a b, a <= b -> xltb (Fin 0) (xsubq x a) = false -> xltb (Fin 0) (xsubq x b) = false.
Proof. intros x a b L H. apply xltb_false_iff in H. apply xltb_false_iff. destruct x; cbn in *; auto. lra. Qed.
Lemma WB_inn : forall k c w s, pos_ok w (qs s (QStore k)) = true -> WB s (inn k c w s).
Proof.
  intros k c w s P. split; [reflexivity|]. split. { intros j x I. unfold putters in *. rewrite qs_inn in I by discriminate. exact I. }
  intros j H N. assert (N' : putters s j <> []). { unfold putters in *. rewrite qs_inn in N by discriminate. exact N. } specialize (H N').
  destruct (Nat.eq_dec j k) as [->|D]; [|rewrite (room_items s); auto; apply items_inn_o; auto].
  unfold room in *. rewrite qs_inn_k. change (kcap (inn k c w s)) with (kcap s). apply xltb_pos_dec with (2 := H). apply xlen_le. rewrite length_ins_at by auto. lia.
Qed.
Lemma length_adel : forall c (l : list (nat * xq)), NoDup (map fst l) -> In c (map fst l) -> length l = S (length (adel c l)).
Proof.
  induction l as [|(y, p) t IH]; intros N I; [destruct I|]. cbn in *. inversion N as [|? ? N1 N2]; subst. destruct (Nat.eqb_spec c y) as [->|D]; cbn.
  - fold (adel y t). rewrite adel_id; auto.
  - fold (adel c t). destruct I as [->|I]; [congruence|]. f_equal. apply IH; auto.
Qed.
Lemma WB_leaves : forall k c s s', rdy s -> In c (items s k) -> leaves k c s s' -> WB s s'.
Proof.
  intros k c s s' R I [H ->|w i H1 H2 H3 H4 H5 H6].
  - split; [reflexivity|]. split. { intros j x J. unfold putters in *. rewrite qs_out in J by discriminate. exact J. }
    intros j B N. assert (N' : putters s j <> []). { unfold putters in *. rewrite qs_out in N by discriminate. exact N. }
    destruct (Nat.eq_dec j k) as [->|D]; [destruct H; auto; contradiction|]. rewrite (room_items s); auto. apply items_out_o; auto.
  - set (s1 := inn k i (PSorted (c_tprio (comps s w))) (out k c s)) in *. split; [rewrite (fd_kcap _ _ _ H6); reflexivity|].
    assert (P1 : forall j, putters s1 j = putters s j). { intros j. unfold putters, s1. rewrite qs_inn, qs_out by discriminate. reflexivity. }
    split. { intros j x J. apply (putters_freed _ _ _ _ _ H6) in J. rewrite P1 in J. apply J. }
    intros j B N. assert (N' : putters s j <> []).
    { intros Z. apply N. destruct (putters s' j) as [|x t] eqn:P; auto. assert (J : In x (putters s' j)) by (rewrite P; left; auto). apply (putters_freed _ _ _ _ _ H6) in J. rewrite P1, Z in J. destruct J as ([] & _). }
    specialize (B N'). rewrite (room_items s1); [|exact (fd_kcap _ _ _ H6) | apply items_freed with (1 := H6)].
    destruct (Nat.eq_dec j k) as [->|D].
    + unfold room in *. unfold s1. rewrite qs_inn_k, qs_out_k. change (kcap (inn k i (PSorted (c_tprio (comps s w))) (out k c s))) with (kcap s). apply xltb_pos_dec with (2 := B). apply xlen_le.
      rewrite length_ins_at by reflexivity. rewrite (length_adel c); [lia | apply R | exact I].
    + rewrite (room_items s); auto. unfold s1. rewrite items_inn_o, items_out_o; auto.
Qed.
Lemma WB_enters : forall k c w s s', rdy s -> fits s k c w -> enters k c w s s' -> WB s s'.
Proof.
  intros k c w s s' R (F1 & F2 & F3) [T ->|d s2 T L R2 H]; [apply WB_inn; auto|].
  apply (po_trans _ WB_po) with (inn k c w s); [apply WB_inn; auto|]. apply (po_trans _ WB_po) with s2.
  - apply (WB_leaves k c); auto; [apply rdy_inn; auto | apply items_inn; auto].
  - apply WB_same; [exact (ha_kcap _ _ _ _ H) | | intros; apply items_handed with (1 := H)]. intros j x. rewrite (putters_handed _ _ _ _ _ H). auto.
Qed.

(** ** the calls that are not about stores: they only withdraw registrations *)
Definition ftq (q : qref) : bool := match q with QFrom _ | QTo _ | QStore _ => true | _ => false end.
Definition Down (s s' : env) : Prop :=
  kcap s' = kcap s /\ (forall k, qs s' (QStore k) = qs s (QStore k)) /\ (forall x, c_filter (comps s' x) = c_filter (comps s x)) /\
  forall k x, (In x (takers s' k) -> In x (takers s k)) /\ (In x (putters s' k) -> In x (putters s k)).
Lemma Down_po : preorder Down.
Proof. constructor; unfold Down; [auto|]. intros a b c (A & B & C & D) (E & F & G & H). split; [congruence|]. split; [intros; rewrite F; auto|]. split; [intros; rewrite G; auto|].
  intros k x. split; intros I; apply D, H, I. Qed.
Lemma Down_same : forall s s', comps s' = comps s -> qs s' = qs s -> kcap s' = kcap s -> Down s s'.
Proof. intros s s' E F G. unfold Down, takers, putters. rewrite E, F. auto. Qed.
Lemma Down_comp : forall c f s, (forall y, c_filter (f y) = c_filter y) -> Down s (m_comp c f s).
Proof. intros c f s H. split; [reflexivity|]. split; [reflexivity|]. split; [|auto]. intros x. rewrite comps_m_comp. destruct (Nat.eqb_spec x c) as [->|]; auto. Qed.
Lemma Down_q : forall q f s, ftq q = false -> Down s (m_q q f s).
Proof.
  intros q f s H. split; [reflexivity|]. split; [|split; [reflexivity|]].
  - intros k. rewrite qs_m_q. destruct q; try discriminate; reflexivity.
  - intros k x. unfold takers, putters. rewrite !qs_m_q. destruct q; try discriminate; auto.
Qed.
Lemma Down_adel : forall q c s, reg q = true -> Down s (m_q q (adel c) s).
Proof.
  intros q c s H. assert (A : forall q', In q' [QFrom 0; QTo 0] \/ True -> forall x, In x (map fst (qs (m_q q (adel c) s) q')) -> In x (map fst (qs s q'))).
  { intros q' _ x. rewrite qs_m_q. destruct (qeqb q' q) eqn:E; auto. apply qeqb_iff in E. subst q'. intros I. apply in_map_iff in I. destruct I as (y & <- & I). apply filter_In in I. apply in_map, I. }
  split; [reflexivity|]. split; [|split; [reflexivity|]].
  - intros k. rewrite qs_m_q. destruct q; try discriminate; reflexivity.
  - intros k x. split; apply A; auto.
Qed.
Lemma WA_down : forall s s', Down s s' -> WA s s'.
Proof. intros s s' (A & B & C & D). split; intros; [split; [apply D; auto | auto]|]. left. unfold items in *. rewrite B in H0. auto. Qed.
Lemma WB_down : forall s s', Down s s' -> WB s s'.
Proof. intros s s' (A & B & C & D). apply WB_same; auto; intros; [apply D; auto|]. unfold items. rewrite B. reflexivity. Qed.
Section Down.
  Ltac fn := fgo Down_po; try (apply Down_comp; reflexivity); try (apply Down_same; reflexivity).
  Local Notation R := Down.
  Lemma dn_q_leave : forall q c, reg q = true -> frames R (q_leave q c). Proof. intros. unfold q_leave. fn; apply Down_adel; auto. Qed.
  Lemma dn_q_enter : forall q c p, ftq q = false -> frames R (q_enter q c p). Proof. intros. unfold q_enter. fn; apply Down_q; auto. Qed.
  Lemma dn_remove : forall c, frames R (remove c). Proof. intros. unfold remove. fn. Qed.
  Lemma dn_resched : forall c t p u cap, frames R (reschedule c t p u cap). Proof. intros. unfold reschedule, push. fn. Qed.
  Lemma dn_leave_req : forall c r, frames R (leave_req c r). Proof. intros. unfold leave_req. fn; auto using dn_q_leave. Qed.
  Lemma dn_check_fail : forall c, frames R (check_fail c). Proof. intros. unfold check_fail. fn; auto using dn_q_leave, dn_leave_req. Qed.
  Ltac f := fn; auto using dn_q_leave, dn_q_enter, dn_remove, dn_check_fail, dn_resched, dn_leave_req.
  Lemma dn_activate : forall c a d p u pr kr kw cap, frames R (activate c a d p u pr kr kw cap). Proof. intros. unfold activate. f. Qed.
  Lemma dn_create : forall c a d p u sk cap, frames R (create c a d p u sk cap). Proof. intros. unfold create. f. Qed.
  Lemma dn_hold : forall c sp p u i cap, frames R (hold c sp p u i cap). Proof. intros. unfold hold, check_notdata. f. Qed.
  Lemma dn_passivate : forall c, frames R (passivate c). Proof. intros. unfold passivate, check_notdata. f. Qed.
  Lemma dn_interrupt : forall c, frames R (interrupt c). Proof. intros. unfold interrupt, check_notdata. f. Qed.
  Lemma dn_resume : forall c a p u, frames R (resume c a p u). Proof. intros. unfold resume. f. Qed.
  Lemma dn_standby : forall c, frames R (standby c). Proof. intros. unfold standby, check_notdata, check_notmain. f. Qed.
  Lemma dn_set_remaining : forall c v p u, frames R (set_remaining c v p u). Proof. intros. unfold set_remaining. f. Qed.
  Lemma dn_claim : forall c r q, frames R (claim c r q). Proof. intros. unfold claim, q_prio. f. Qed.
  Lemma dn_honor_one : forall c r q, frames R (honor_one c r q). Proof. intros. unfold honor_one, q_prio. f. Qed.
  Lemma dn_honor_all_from : forall c rq, frames R (honor_all_from c rq). Proof. induction rq as [|[r q] t IH]; cbn; f; auto using dn_honor_one. Qed.
  Lemma dn_honor_any_from : forall c rq, frames R (honor_any_from c rq). Proof. induction rq as [|[r q] t IH]; cbn; f; auto using dn_honor_one. Qed.
  Lemma dn_c_try : forall rt c, (forall r, frames R (rt r)) -> frames R (c_try rt c).
  Proof. intros rt c Hrt. unfold c_try, honor_all, honor_any. f; auto using dn_honor_all_from, dn_honor_any_from, dn_claim. Qed.
  Lemma dn_rloop : forall rt r an first p1, (forall r, frames R (rt r)) -> forall n mx, frames R (rloop (c_try rt) n r an first p1 mx).
  Proof. intros rt r an first p1 Hrt. induction n as [|n IH]; intros mx; cbn [rloop]; destruct mx as [[c p]|]; f; auto using dn_c_try. Qed.
  Lemma dn_r_try : forall n r, frames R (r_try n r).
  Proof. induction n as [|n IH]; intros r; cbn [r_try]; f; auto using dn_rloop. Qed.
  Lemma dn_release1 : forall n c r q b, frames R (release1 n c r q b). Proof. intros. unfold release1. f; auto using dn_r_try. Qed.
  Lemma dn_release : forall n c a, frames R (release n c a). Proof. intros. unfold release. f; auto using dn_release1. Qed.
  Lemma dn_release_claimers : forall z n r mx, frames R (release_claimers z n r mx).
  Proof. induction n; intros r mx; cbn [release_claimers]; destruct mx as [[c p]|]; f; apply dn_release. Qed.
  Lemma dn_res_release : forall n r q, frames R (res_release n r q). Proof. intros. unfold res_release. f; auto using dn_r_try, dn_release_claimers. Qed.
  Lemma dn_set_cap : forall n r q, frames R (set_cap n r q). Proof. intros. unfold set_cap. f; auto using dn_r_try. Qed.
  Lemma dn_cancel : forall n c, frames R (cancel n c). Proof. intros. unfold cancel. f; auto using dn_release1. Qed.
  Lemma dn_continue : forall n c, frames R (continue n c). Proof. intros. unfold continue. f; auto using dn_r_try. Qed.
  Lemma dn_step : forall n, frames R (step n). Proof. intros. unfold step, step_event. f; auto using dn_continue. Qed.
  Lemma dn_c_trywait : forall c, frames R (c_trywait c). Proof. intros. unfold c_trywait, leave_wait. f. Qed.
  Lemma dn_s_trywait : forall l m, frames R (s_trywait l m). Proof. induction l as [|c t IH]; intros m; cbn [s_trywait]; f; auto using dn_c_trywait. Qed.
  Lemma dn_st_trywait : forall st m, frames R (st_trywait st m). Proof. intros. unfold st_trywait. f; auto using dn_s_trywait. Qed.
  Lemma dn_st_set : forall st v, frames R (st_set st v). Proof. intros. unfold st_set, set_sval. f; auto using dn_st_trywait. Qed.
  Lemma dn_st_trigger : forall st v a m, frames R (st_trigger st v a m). Proof. intros. unfold st_trigger, set_sval. f; auto using dn_st_trywait. Qed.
  Lemma dn_run : forall sp p u cap, frames R (run sp p u cap). Proof. intros. unfold run. f. Qed.

  Lemma dn_exec : forall n o, storeless o = true -> (forall c f, o <> OTouch c f) -> frames R (exec n o).
  Proof.
    intros n o H HT. destruct o; try discriminate; cbn [exec]; auto using dn_create, dn_activate, dn_hold, dn_passivate, dn_interrupt, dn_resume, dn_cancel, dn_standby,
        dn_set_remaining, dn_release, dn_res_release, dn_set_cap, dn_st_set, dn_st_trigger, dn_run, dn_step; try (unfold reset_now; f; fail); try (destruct (HT c f); reflexivity).
    - unfold request, request1, fail_time, check_notdata, check_notmain. f; auto using dn_release1, dn_activate, dn_c_try, dn_r_try.
    - unfold wait, wait1, fail_time, check_notdata, check_notmain. f; auto using dn_c_trywait.
    - unfold wait_for, fail_time, check_notdata, check_notmain. f; auto using dn_c_trywait.
  Qed.
  Lemma dn_end : forall n, frames R (exec n OEnd).
  Proof. intros n. cbn [exec]. unfold terminate. f; auto using dn_release1. Qed.
End Down.

(** ** from_store and to_store *)
(** only the registrations of [c] itself are new *)
Definition Reg (c : nat) (s s' : env) : Prop :=
  kcap s' = kcap s /\ (forall k, qs s' (QStore k) = qs s (QStore k)) /\ (forall x, x <> c -> c_filter (comps s' x) = c_filter (comps s x)) /\
  forall k x, x <> c -> (In x (takers s' k) -> In x (takers s k)) /\ (In x (putters s' k) -> In x (putters s k)).
Lemma Reg_po : forall c, preorder (Reg c).
Proof. intros d. constructor; unfold Reg; [auto|]. intros a b c (A & B & C & D) (E & F & G & H). split; [congruence|]. split; [intros; rewrite F; auto|]. split; [intros; rewrite G; auto|].
  intros k x N. split; intros I; apply (D k x N), (H k x N), I. Qed.
Lemma Reg_down : forall c s s', Down s s' -> Reg c s s'.
Proof. intros c s s' (A & B & C & D). unfold Reg. repeat split; auto; intros; apply D; auto. Qed.
Lemma Reg_comp : forall c f s, Reg c s (m_comp c f s).
Proof. intros c f s. split; [reflexivity|]. split; [reflexivity|]. split; [|auto]. intros x N. rewrite comps_diff by auto. reflexivity. Qed.
Lemma Reg_same : forall c s s', comps s' = comps s -> qs s' = qs s -> kcap s' = kcap s -> Reg c s s'.
Proof. intros c s s' E F G. unfold Reg, takers, putters. rewrite E, F. auto. Qed.
Lemma Reg_q_enter : forall c q p, reg q = true -> frames (Reg c) (q_enter q c p).
Proof.
  intros c q p H s. unfold q_enter, bind, get. destruct (inq c (qs s q)); [apply (po_refl _ (Reg_po c))|]. cbn [fst put]. unfold put. cbn [fst].
  split; [reflexivity|]. split; [intros k; rewrite qs_m_q; destruct q; try discriminate; reflexivity|]. split; [auto|].
  assert (A : forall q' x, x <> c -> In x (map fst (qs (m_q q (ins_sorted c p) s) q')) -> In x (map fst (qs s q'))).
  { intros q' x N. rewrite qs_m_q. destruct (qeqb q' q) eqn:E; auto. apply qeqb_iff in E. subst q'. intros I. apply in_map_iff in I. destruct I as (y & <- & I).
    destruct (qs s q) as [|b t]; cbn [ins_sorted] in I.
    - destruct I as [<-|[]]. cbn in N. congruence.
    - destruct (xltb p (snd b)). { destruct I as [<-|I]; [cbn in N; congruence | apply in_map; auto]. }
      apply in_ins_tail in I. destruct I as [->|I]; [cbn in N; congruence | apply in_map; auto]. }
  intros k x N. split; apply A; auto.
Qed.
Lemma Reg_resched : forall c t p u cap, frames (Reg c) (reschedule c t p u cap).
Proof. intros c t p u cap s. apply Reg_down, dn_resched. Qed.
Ltac frg c := fgo (Reg_po c); try (apply Reg_comp); try (apply Reg_same; reflexivity).
Lemma pre_down : forall c b, frames Down (when b (check_notdata c ;;; check_notmain c ;;; remove c ;;; check_fail c)).
Proof. intros. unfold check_notdata, check_notmain. fgo Down_po; auto using dn_remove, dn_check_fail. Qed.
Lemma down_of : forall (m : M unit) s s' r, frames Down m -> m s = (s', r) -> Down s s'.
Proof. intros m s s' r F E. specialize (F s). rewrite E in F. exact F. Qed.

Lemma from_keeps : forall n s c ks f key rp fl fp u cap s', QI s -> OneK s -> from_store n c ks f key rp fl fp u cap s = (s', Ok tt) ->
  (WA s s' /\ WB s s') \/ (fst (find_item s f key None ks 0%nat) = None /\ ks <> [] /\ Reg c s s' /\ c_from (comps s' c) = ks /\ c_filter (comps s' c) = f).
Proof.
  intros n s c ks f key rp fl fp u cap s' Q O E. unfold from_store in E.
  apply unit_inv in E. destruct E as (s0 & E0 & E). assert (X0 : s0 = s /\ ks <> []). { destruct ks as [|k0 t]; [discriminate|]. split; [|discriminate]. destruct (_ || _); [discriminate | injection E0 as <-; auto]. } destruct X0 as (-> & KN). clear E0.
  change (bind (stat c) ?h s) with (h (c_status (comps s c)) s) in E. cbv beta in E.
  apply unit_inv in E. destruct E as (s1 & E1 & E). destruct (pre_ok s c s1 tt Q O E1) as (B1 & R1 & U1). apply (down_of _ _ _ _ (pre_down c _)) in E1. rename E1 into D1.
  apply bind_inv in E. destruct E as (s1' & t & E2 & E). assert (s1' = s1). { unfold fail_time in E2. destruct fl; cbn in E2; inversion E2; auto. } subst s1'. clear E2.
  apply unit_inv in E. destruct E as (s2 & E2 & E). injection E2 as <-. set (s2 := m_comp c (w_failed false) s1) in *. apply get_inv in E.
  assert (B2 : but c s1 s2) by (apply but_comp; reflexivity).
  assert (R2 : rdy s2). { apply rdy_same; auto. apply EI_comp; [intros; repeat split; reflexivity | apply R1]. }
  assert (U2 : out_of s2 c) by exact U1.
  assert (D2 : Down s s2). { apply (po_trans _ Down_po) with s1; auto. apply Down_comp; reflexivity. }
  assert (FI : find_item s2 f key None ks 0%nat = find_item s f key None ks 0%nat).
  { apply find_item_ext. intros k. rewrite (bu_i _ _ _ B2), (bu_i _ _ _ B1). auto. }
  rewrite FI in E. destruct (find_item s f key None ks 0%nat) as ([i|] & k) eqn:FK.
  - left. apply unit_inv in E. destruct E as (s3 & E3 & E). destruct (leave_ok _ _ _ _ _ R2 E3) as (I3 & L3 & R3 & _).
    apply unit_inv in E. destruct E as (s4 & E4 & E). injection E4 as <-. set (s4 := m_comp c (w_fitem (Some i)) s3) in *.
    change (wake_up c s4 = (s', Ok tt)) in E.
    assert (D4 : Down s3 s'). { apply (po_trans _ Down_po) with s4; [apply Down_comp; reflexivity|]. apply (down_of (wake_up c) _ _ (Ok tt)); auto. unfold wake_up. fgo Down_po; auto using dn_remove, dn_resched; apply Down_comp; reflexivity. }
    split.
    + apply (po_trans _ WA_po) with s2; [apply WA_down; auto|]. apply (po_trans _ WA_po) with s3; [|apply WA_down; auto]. apply (po_trans _ WA_po) with (out k i s2); [apply WA_out | apply WA_leaves; auto].
    + apply (po_trans _ WB_po) with s2; [apply WB_down; auto|]. apply (po_trans _ WB_po) with s3; [|apply WB_down; auto]. apply (WB_leaves k i); auto.
  - right. split; auto. split; auto.
    assert (F : frames (Reg c) (setc c (w_from ks) ;;; mfor ks (fun k => q_enter (QFrom k) c rp) ;;; setc c (w_status Requesting) ;;; setc c (w_fitem None) ;;; setc c (w_filter f) ;;; reschedule c t fp u cap)).
    { frg c; auto using Reg_q_enter, Reg_resched. }
    specialize (F s2). rewrite E in F. cbn [fst] in F. split; [apply (po_trans _ (Reg_po c)) with s2; auto using Reg_down|].
    apply unit_inv in E. destruct E as (z1 & E4 & E). injection E4 as <-. apply unit_inv in E. destruct E as (z2 & EM & E). apply unit_inv in E. destruct E as (z3 & E4 & E). injection E4 as <-.
    apply unit_inv in E. destruct E as (z4 & E4 & E). injection E4 as <-. apply unit_inv in E. destruct E as (z5 & E5 & E). injection E5 as <-.
    set (z5 := m_comp c (w_filter f) (m_comp c (w_fitem None) (m_comp c (w_status Requesting) z2))) in *.
    assert (CM : comps z2 = comps (m_comp c (w_from ks) s2)).
    { assert (FC : frames (fun a b => comps b = comps a) (mfor ks (fun k => q_enter (QFrom k) c rp))).
      { assert (PO : preorder (fun a b : env => comps b = comps a)) by (constructor; intros; congruence). unfold q_enter. fgo PO; reflexivity. }
      specialize (FC (m_comp c (w_from ks) s2)). rewrite EM in FC. exact FC. }
    assert (K : comps z5 c = w_filter f (w_fitem None (w_status Requesting (w_from ks (comps s2 c))))). { unfold z5. rewrite !comps_same, CM, comps_same. reflexivity. }
    assert (Y : c_from (comps s' c) = c_from (comps z5 c) /\ c_filter (comps s' c) = c_filter (comps z5 c)).
    { set (RR := fun a b : env => c_from (comps b c) = c_from (comps a c) /\ c_filter (comps b c) = c_filter (comps a c)).
      assert (PO : preorder RR). { constructor; unfold RR; [auto|]. intros x y z (?&?) (?&?). split; congruence. }
      assert (FR : frames RR (reschedule c t fp u cap)).
      { unfold reschedule, push. fgo PO; try (unfold RR; repeat split; reflexivity); unfold RR; rewrite comps_same; repeat split; reflexivity. }
      specialize (FR z5). rewrite E in FR. exact FR. }
    destruct Y as (Y1 & Y2). rewrite Y1, Y2, K. split; reflexivity.
Qed.
Lemma to_try_keeps : forall n c i p ks s s' b, rdy s -> to_try n c i p ks s = (s', Ok b) ->
  if b then WA s s' /\ WB s s' else s' = s /\ forall k, In k ks -> xltb (Fin 0) (kmav s k) = false.
Proof.
  intros n c i p. induction ks as [|k t IH]; intros s s' b R E; cbn [to_try] in E.
  - injection E as <- <-. split; auto. intros k [].
  - apply get_inv in E. destruct (xltb (Fin 0) (kmav s k)) eqn:KA.
    + apply unit_inv in E. destruct E as (s1 & E1 & E). destruct (enter_cases _ _ _ _ _ _ _ R E1) as [(_ & F & EN & R1)|(e & X & _)]; [|discriminate].
      assert (DF : frames Down (setc c (w_titem None) ;;; setc c (w_to []) ;;; remove c ;;; setc c (w_status Scheduled) ;;; n <- get now ;; reschedule c (Fin n) (Fin 0) false (Some false) ;;; ret true)).
      { fgo Down_po; auto using dn_remove, dn_resched; apply Down_comp; reflexivity. }
      specialize (DF s1). rewrite E in DF. cbn [fst] in DF.
      assert (b = true).
      { apply unit_inv in E. destruct E as (? & _ & E). apply unit_inv in E. destruct E as (? & _ & E). apply unit_inv in E. destruct E as (? & _ & E). apply unit_inv in E. destruct E as (? & _ & E).
        apply get_inv in E. apply unit_inv in E. destruct E as (? & _ & E). injection E as _ <-. reflexivity. }
      subst b. split; [apply (po_trans _ WA_po) with s1; [eapply WA_enters; eauto | apply WA_down; auto] | apply (po_trans _ WB_po) with s1; [eapply WB_enters; eauto | apply WB_down; auto]].
    + specialize (IH _ _ _ R E). destruct b; auto. destruct IH as (-> & IH). split; auto. intros k' [<-|K]; auto.
Qed.
Lemma to_keeps : forall n s c ks i rp p fl fp u cap s', QI s -> OneK s -> to_store n c ks i rp p fl fp u cap s = (s', Ok tt) ->
  (WA s s' /\ WB s s') \/ ((forall k, In k ks -> xltb (Fin 0) (kmav s k) = false) /\ ks <> [] /\ Reg c s s' /\ c_to (comps s' c) = ks).
Proof.
  intros n s c ks i rp p fl fp u cap s' Q O E. unfold to_store in E.
  apply unit_inv in E. destruct E as (s0 & E0 & E). assert (X0 : s0 = s /\ ks <> []). { destruct ks as [|k0 t]; [discriminate|]. split; [|discriminate]. destruct (_ || _); [discriminate | injection E0 as <-; auto]. } destruct X0 as (-> & KN). clear E0.
  change (bind (stat c) ?h s) with (h (c_status (comps s c)) s) in E. cbv beta in E.
  apply unit_inv in E. destruct E as (s1 & E1 & E). destruct (pre_ok s c s1 tt Q O E1) as (B1 & R1 & U1). 
  assert (KM : kmav s1 = kmav s).
  { assert (F : frames (fun a b => kmav b = kmav a) (when (negb (steqb (c_status (comps s c)) Current)) (check_notdata c ;;; check_notmain c ;;; remove c ;;; check_fail c))).
    { unfold check_notdata, check_notmain, remove, check_fail, leave_req, q_leave. assert (PO : preorder (fun a b => kmav b = kmav a)) by (constructor; intros; congruence). fgo PO; try reflexivity. }
    specialize (F s). rewrite E1 in F. exact F. }
  apply (down_of _ _ _ _ (pre_down c _)) in E1. rename E1 into D1.
  apply bind_inv in E. destruct E as (s1' & t & E2 & E). assert (s1' = s1). { unfold fail_time in E2. destruct fl; cbn in E2; inversion E2; auto. } subst s1'. clear E2.
  apply unit_inv in E. destruct E as (s2 & E2 & E). injection E2 as <-. set (s2 := m_comp c (w_failed false) s1) in *.
  assert (R2 : rdy s2). { apply rdy_same; auto. apply EI_comp; [intros; repeat split; reflexivity | apply R1]. }
  assert (D2 : Down s s2). { apply (po_trans _ Down_po) with s1; auto. apply Down_comp; reflexivity. }
  assert (K2 : kmav s2 = kmav s) by exact KM.
  apply bind_inv in E. destruct E as (s3 & b & E3 & E). apply to_try_keeps in E3; auto. destruct b.
  - left. injection E as <-. destruct E3 as (A & B). split; [apply (po_trans _ WA_po) with s2; auto; apply WA_down; auto | apply (po_trans _ WB_po) with s2; auto; apply WB_down; auto].
  - right. destruct E3 as (-> & A). rewrite K2 in A. split; auto. split; auto.
    assert (F : frames (Reg c) (mfor ks (fun k => q_enter (QTo k) c rp) ;;; setc c (w_status Requesting) ;;; setc c (w_titem (Some i)) ;;; setc c (w_tprio p) ;;; setc c (w_to ks) ;;; reschedule c t fp u cap)).
    { frg c; auto using Reg_q_enter, Reg_resched. }
    specialize (F s2). rewrite E in F. cbn [fst] in F. split; [apply (po_trans _ (Reg_po c)) with s2; auto using Reg_down|].
    apply unit_inv in E. destruct E as (z1 & _ & E). apply unit_inv in E. destruct E as (z2 & E4 & E). injection E4 as <-.
    apply unit_inv in E. destruct E as (z3 & E4 & E). injection E4 as <-. apply unit_inv in E. destruct E as (z4 & E4 & E). injection E4 as <-.
    apply unit_inv in E. destruct E as (z5 & E4 & E). injection E4 as <-.
    match type of E with reschedule _ _ _ _ _ ?z = _ => set (z5 := z) in * end.
    assert (K : c_to (comps z5 c) = ks). { unfold z5. rewrite !comps_same. reflexivity. }
    rewrite <- K. set (RR := fun a b : env => c_to (comps b c) = c_to (comps a c)).
    assert (PO : preorder RR). { constructor; unfold RR; [auto|]. intros; congruence. }
    assert (FR : frames RR (reschedule c t fp u cap)).
    { unfold reschedule, push. fgo PO; try (unfold RR; repeat split; reflexivity); unfold RR; rewrite comps_same; repeat split; reflexivity. }
    specialize (FR z5). rewrite E in FR. exact FR.
Qed.

(** ** rescan, filter and set_capacity *)
Lemma dn_leave_from : forall d, frames Down (leave_from d). Proof. intros. unfold leave_from. fgo Down_po; auto using dn_q_leave. Qed.
Lemma dn_leave_to : forall d, frames Down (leave_to d). Proof. intros. unfold leave_to. fgo Down_po; auto using dn_q_leave. Qed.
Lemma dn_give : forall d i, frames Down (give d i). Proof. intros. unfold give. fgo Down_po; auto using dn_remove, dn_resched; apply Down_comp; reflexivity. Qed.
Lemma dn_go_on : forall d, frames Down (go_on d). Proof. intros. unfold go_on. fgo Down_po; auto using dn_remove, dn_resched; apply Down_comp; reflexivity. Qed.
Definition W (s s' : env) : Prop := WA s s' /\ WB s s'.
Lemma W_po : preorder W.
Proof. constructor; unfold W; [intros; split; [apply (po_refl _ WA_po) | apply (po_refl _ WB_po)]|]. intros a b c (A & B) (C & D). split; [eapply (po_trans _ WA_po) | eapply (po_trans _ WB_po)]; eauto. Qed.
Lemma W_down : forall s s', Down s s' -> W s s'. Proof. intros; split; auto using WA_down, WB_down. Qed.
Lemma W_leaves : forall k c s s', rdy s -> In c (items s k) -> leaves k c s s' -> W s s'.
Proof. intros. split; [|eapply WB_leaves; eauto]. apply (po_trans _ WA_po) with (out k c s); [apply WA_out | apply WA_leaves; auto]. Qed.
Lemma rescan_items_keeps : forall n k d l s s', rdy s -> (In d (takers s k) \/ c_from (comps s d) = [] /\ forall j, ~ In d (putters s j)) -> rescan_items n k d l s = (s', Ok tt) ->
  W s s' /\ rdy s' /\ (In d (takers s' k) -> s' = s /\ forall i, In i l -> c_filter (comps s d) i = false).
Proof.
  intros n k d. induction l as [|i t IH]; intros s s' R H E; cbn [rescan_items] in E.
  { injection E as <-. split; [apply (po_refl _ W_po)|]. split; auto. intros _. split; auto. intros i []. }
  unfold bind at 1, get at 1 in E. destruct (c_filter (comps s d) i) eqn:A.
  2: { unfold bind at 1, ret at 1 in E. destruct (IH s s' R H E) as (X & Y & Z). split; auto. split; auto. intros I. destruct (Z I) as (Z1 & Z2). split; auto. intros j [<-|J]; auto. }
  assert (L : exists s1, leave_from d s = (s1, Ok tt) /\ rdy s1 /\ (forall j, ~ In d (takers s1 j)) /\ (forall j, ~ In d (putters s1 j))).
  { destruct H as [D|(F & P)].
    - destruct (leave_from_ok s d k R D) as (s1 & E1 & B1 & R1 & C1 & NT1 & P1). exists s1. split; auto. split; auto. split; auto. intros j J. rewrite P1 in J. exact (ry_one _ R d k j D J).
    - exists s. split; [unfold leave_from, bind, get; rewrite F; reflexivity|]. split; auto. split; auto. intros j J. pose proof (proj2 (ry_f _ R d j j J) J) as X. rewrite F in X. exact X. }
  destruct L as (s1 & E1 & R1 & NT1 & NP1). pose proof (down_of _ _ _ _ (dn_leave_from d) E1) as D1.
  destruct (item_leave n k i s1) as [s2 [[]|e]] eqn:E2. 2: { unfold bind in E. rewrite E1, E2 in E. discriminate. }
  destruct (leave_ok _ _ _ _ _ R1 E2) as (I1 & L1 & R2 & _). pose proof (W_leaves _ _ _ _ R1 I1 L1) as W2.
  destruct (give_ok s2 d i (ry_e _ R2)) as (s3 & E3 & A1 & A2 & A3 & A4 & A5 & A6). pose proof (down_of _ _ _ _ (dn_give d i) E3) as D3.
  assert (E' : rescan_items n k d t s3 = (s', Ok tt)).
  { unfold bind at 1 in E. rewrite (bind_ok _ _ _ _ _ _ _ E1), (bind_ok _ _ _ _ _ _ _ E2), E3 in E. exact E. }
  assert (NT2 : forall j, ~ In d (takers s2 j)) by (intros j J; rewrite (takers_leaves _ _ _ _ _ L1) in J; exact (NT1 _ J)).
  assert (NP2 : forall j, ~ In d (putters s2 j)) by (intros j J; apply W2 in J; exact (NP1 _ J)).
  assert (NP3 : forall j, ~ In d (putters s3 j)) by (intros j; unfold putters; rewrite A1; apply NP2).
  assert (NT3 : forall j, ~ In d (takers s3 j)) by (intros j; unfold takers; rewrite A1; apply NT2).
  assert (B3 : but d s2 s3). { constructor; auto; try (intros; unfold items, takers, putters; rewrite A1; tauto). rewrite A5. reflexivity. }
  assert (F3 : c_from (comps s3 d) = []) by (rewrite A5; reflexivity).
  assert (R3 : rdy s3). { apply rdy_but with (d := d) (s := s2); auto; [intros q; rewrite A1; apply R2 | rewrite F3; constructor | rewrite A5; apply R2]. }
  destruct (IH s3 s' R3 (or_intror (conj F3 NP3)) E') as (X & Y & Z). split; [|split; auto].
  - apply (po_trans _ W_po) with s1; [apply W_down; auto|]. apply (po_trans _ W_po) with s2; auto. apply (po_trans _ W_po) with s3; auto. apply W_down; auto.
  - intros I. exfalso. destruct (Z I) as (-> & _). exact (NT3 _ I).
Qed.
(** after rescan nobody in the line of the store has been missed, whatever happened before *)
Lemma rescan_keeps : forall n k s s', rdy s -> rescan n k s = (s', Ok tt) -> W s s' /\ rdy s' /\ no_missed s' k.
Proof.
  intros n k s s' R E. unfold rescan in E. apply get_inv in E.
  assert (G : forall ds z z', rdy z -> mfor ds (fun d => l <- get (fun s => qs s (QFrom k)) ;; when (inq d l) (items <- get (fun s => map fst (qs s (QStore k))) ;; rescan_items n k d items)) z = (z', Ok tt) ->
            W z z' /\ rdy z' /\ forall d i, In d ds -> In d (takers z' k) -> In i (items z' k) -> c_filter (comps z' d) i = false).
  { clear. induction ds as [|d t IH]; intros z z' R E; cbn [mfor] in E.
    { injection E as <-. split; [apply (po_refl _ W_po)|]. split; auto. intros d i []. }
    apply unit_inv in E. destruct E as (z1 & E1 & E). apply get_inv in E1.
    assert (X : W z z1 /\ rdy z1 /\ forall i, In d (takers z1 k) -> In i (items z1 k) -> c_filter (comps z1 d) i = false).
    { destruct (inq d (qs z (QFrom k))) eqn:D; cbn [when] in E1.
      - apply get_inv in E1. apply inq_iff in D. destruct (rescan_items_keeps n k d (map fst (qs z (QStore k))) z z1 R (or_introl D) E1) as (X & Y & Z). split; auto. split; auto.
        intros i I J. destruct (Z I) as (-> & Z2). apply Z2. exact J.
      - injection E1 as <-. split; [apply (po_refl _ W_po)|]. split; auto. intros i I. apply inq_iff in I. congruence. }
    destruct X as (W1 & R1 & M1). destruct (IH z1 z' R1 E) as (W2 & R2 & M2). split; [apply (po_trans _ W_po) with z1; auto|]. split; auto.
    intros d' i [<-|I] J K; [|eauto]. destruct W2 as ((A & B) & _). destruct (B k d i J K) as [X|X]; auto. destruct (A k d J) as (Y & Z). rewrite Z. auto. }
  destruct (G _ _ _ R E) as (A & B & C). split; auto. split; auto. intros d i D I. apply C; auto. apply A in D. exact (proj1 D).
Qed.
Lemma rescans_keep : forall n ks s s', rdy s -> mfor ks (rescan n) s = (s', Ok tt) -> W s s' /\ rdy s' /\ forall k, In k ks -> no_missed s' k.
Proof.
  intros n. induction ks as [|k t IH]; intros s s' R E; cbn [mfor] in E.
  { injection E as <-. split; [apply (po_refl _ W_po)|]. split; auto. intros k []. }
  apply unit_inv in E. destruct E as (s1 & E1 & E). destruct (rescan_keeps _ _ _ _ R E1) as (A & B & C). destruct (IH s1 s' B E) as (A' & B' & C').
  split; [apply (po_trans _ W_po) with s1; auto|]. split; auto. intros j [<-|J]; auto. apply WA_use with s1; auto. apply A'.
Qed.
Lemma go_on_in : forall d (m : M unit) s, (setc d (w_to []) ;;; remove d ;;; setc d (w_status Scheduled) ;;; n <- get now ;; reschedule d (Fin n) (Fin 0) false (Some false) ;;; setc d (w_titem None) ;;; m) s = (go_on d ;;; m) s.
Proof.
  intros. unfold go_on. rewrite !bind_assoc. unfold bind, setc, put, get. destruct (remove d _) as [s4 [a|e]]; auto.
  match goal with |- context [reschedule ?a ?b ?c ?e ?f ?z] => destruct (reschedule a b c e f z) as [s5 [b0|e0]]; auto end.
Qed.
Lemma AV_room : forall s k, AV s -> xltb (Fin 0) (kmav s k) = xltb (Fin 0) (room s k).
Proof.
  intros s k V. specialize (V k). unfold room. destruct (kmav s k) as [x|], (xsubq (kcap s k) (xlen (qs s (QStore k)))) as [y|]; cbn [xeq] in V; try contradiction; auto.
  destruct (xltb (Fin 0) (Fin x)) eqn:A, (xltb (Fin 0) (Fin y)) eqn:B; auto; [apply xltb_iff in A; apply xltb_false_iff in B | apply xltb_iff in B; apply xltb_false_iff in A]; cbn in A, B; lra.
Qed.
(** after the line of those who want to put an item has been served: there is no room or nobody is left *)
Lemma rescan_to_keeps : forall n k ds s s', rdy s -> AV s -> rescan_to_loop n k ds s = (s', Ok tt) -> W s s' /\ rdy s' /\ ((forall x, In x (putters s k) -> In x ds) -> no_idle s' k).
Proof.
  intros n k. induction ds as [|d t IH]; intros s s' R V E; cbn [rescan_to_loop] in E.
  { injection E as <-. split; [apply (po_refl _ W_po)|]. split; auto. intros H N. destruct N. destruct (putters s k) as [|x t]; auto. destruct (H x). left; auto. }
  apply get_inv in E. destruct (inq d (qs s (QTo k))) eqn:D.
  2: { destruct (IH s s' R V E) as (A & B & C). split; auto. split; auto. intros H. apply C. intros x X. destruct (H x X) as [<-|Y]; auto. apply inq_iff in X. congruence. }
  apply get_inv in E. destruct (xltb (Fin 0) (kmav s k)) eqn:KA.
  2: { injection E as <-. split; [apply (po_refl _ W_po)|]. split; auto. intros _ _. rewrite <- AV_room; auto. }
  apply inq_iff in D. destruct (leave_to_ok s d k R D) as (s1 & E1 & B1 & R1 & C1 & NP1 & T1). rewrite (bind_ok _ _ _ _ _ _ _ E1) in E.
  apply get_inv in E. rewrite C1 in E. destruct (c_titem (comps s d)) as [i|] eqn:TI; [|discriminate]. apply get_inv in E. rewrite C1 in E.
  apply unit_inv in E. destruct E as (s2 & E2 & E). rewrite go_on_in in E. apply unit_inv in E. destruct E as (s3 & E3 & E).
  destruct (rescan_to_step n k d i s s1 s2 R D TI E1 E2) as (s3' & p & g & E3' & _ & R3 & _). rewrite E3 in E3'. injection E3' as <-.
  destruct (enter_cases _ _ _ _ _ _ _ R1 E2) as [(_ & FT & EN & R2)|(e & X & _)]; [|discriminate].
  pose proof (down_of _ _ _ _ (dn_leave_to d) E1) as D1. pose proof (down_of _ _ _ _ (dn_go_on d) E3) as D3.
  assert (W3 : W s1 s3). { apply (po_trans _ W_po) with s2; [split; [eapply WA_enters; eauto | eapply WB_enters; eauto]|]. apply W_down; auto. }
  assert (V3 : AV s3).
  { pose proof (z_leave_to d s V) as Z1. rewrite E1 in Z1. pose proof (z_item_enter n k i (PSorted (c_tprio (comps s d))) s1 (proj1 Z1)) as Z2. rewrite E2 in Z2.
    assert (ZG : frames SR (go_on d)). { unfold go_on. fz; auto using z_remove, z_resched. } specialize (ZG s2 (proj1 Z2)). rewrite E3 in ZG. apply ZG. }
  destruct (IH s3 s' R3 V3 E) as (A & B & C). split; [apply (po_trans _ W_po) with s1; [apply W_down; auto|]; apply (po_trans _ W_po) with s3; auto|]. split; auto.
  intros H. apply C. intros x X. apply W3 in X. assert (x <> d) by (intros ->; exact (NP1 _ X)). destruct (H x) as [->|Y]; auto; [|congruence]. apply D1. exact X.
Qed.

(** * C73 *)
(** the attributes of items do not change such that somebody who waits now accepts an item that is already there (a model has to call rescan() then) *)
Definition no_touch (s : env) (o : op) : Prop := forall c f, o = OTouch c f -> forall k i, In c (takers s k) -> In i (items s k) -> f i = false.
(** executions in which every call about stores succeeds *)
Inductive tidy : env -> Prop :=
| td_start : forall t0 R sv kc hp y d, fresh R -> tidy (init t0 R sv kc hp y d)
| td_call : forall s n o s' r, tidy s -> wf s o -> no_touch s o -> exec n o s = (s', r) -> (forall e, r = Er e -> storeless o = true /\ caught o e /\ calm o) -> tidy s'.
Lemma tidy_reach : forall s, tidy s -> reachable s.
Proof.
  induction 1 as [t0 R sv kc hp y d F | s n o s' r H IH WF NT E S].
  - exists t0, R, sv, kc, hp, y, d. split; auto. constructor.
  - destruct IH as (t0 & R & sv & kc & hp & y & d & F & K). exists t0, R, sv, kc, hp, y, d. split; auto. eapply rpp_step; eauto. intros e X. apply (S e X).
Qed.
Lemma reachable_AV : forall s, reachable s -> AV s.
Proof. intros s R k. rewrite <- contents_len. apply C28_available, reachable_reach, R. Qed.
Lemma nonempty_in : forall (l : list nat), l <> [] -> exists x, In x l.
Proof. intros [|x t] H; [congruence|]. exists x. left; auto. Qed.
Lemma Reg_missed : forall c s s' k, Reg c s s' -> no_missed s k -> forall d i, d <> c -> In d (takers s' k) -> In i (items s' k) -> c_filter (comps s' d) i = false.
Proof. intros c s s' k (A & B & C & D) H d i N I J. rewrite C by auto. apply H; [apply D; auto|]. unfold items in *. rewrite B in J. exact J. Qed.
Lemma Reg_room : forall c s s' k, Reg c s s' -> room s' k = room s k.
Proof. intros c s s' k (A & B & _). unfold room. rewrite A, B. reflexivity. Qed.
Lemma filter_ok : forall n s c f s', rdy s -> QI s -> exec n (OFilter c f) s = (s', Ok tt) ->
  WB s s' /\ (forall k, In k (c_from (comps s c)) -> no_missed s' k) /\ forall k, ~ In k (c_from (comps s c)) -> no_missed s k -> no_missed s' k.
Proof.
  intros n s c f s' R Q E. cbn [exec] in E. unfold set_filter in E. apply unit_inv in E. destruct E as (z1 & E4 & E). injection E4 as <-. apply get_inv in E. set (z1 := m_comp c (w_filter f) s) in *.
  assert (CF : c_from (comps z1 c) = c_from (comps s c)). { unfold z1. rewrite comps_same. reflexivity. } rewrite CF in E.
  assert (R1 : rdy z1). { apply rdy_same; auto. apply EI_comp; [intros; repeat split; reflexivity | apply R]. }
  destruct (rescans_keep _ _ _ _ R1 E) as ((A & B) & _ & C). split; [|split; auto].
  - apply (po_trans _ WB_po) with z1; auto. apply WB_same; auto.
  - intros k N M. apply WA_use with z1; auto. intros d i D I. unfold z1. rewrite comps_m_comp. destruct (Nat.eqb_spec d c) as [->|ND]; [|apply M; auto]. exfalso. apply N.
    apply (gi_mem _ _ (qi_g _ Q) (QFrom k) c eq_refl). exact D.
Qed.
Lemma store_cap_ok : forall n s k cap s', rdy s -> AV s -> exec n (OStoreCap k cap) s = (s', Ok tt) ->
  WA s s' /\ (forall j, j <> k -> no_idle s j -> no_idle s' j) /\ (xleb (kcap s k) cap = true -> no_idle s' k) /\ (xleb (kcap s k) cap = false -> no_idle s k -> no_idle s' k).
Proof.
  intros n s k cap s' R V E. cbn [exec] in E. unfold st_set_cap in E. apply get_inv in E. apply unit_inv in E. destruct E as (z1 & E4 & E). injection E4 as <-. apply get_inv in E.
  apply unit_inv in E. destruct E as (z2 & E4 & E). injection E4 as <-. change (when (xleb (kcap s k) cap) (ds <- get (fun s => map fst (qs s (QTo k))) ;; rescan_to_loop n k ds) (set_kcap k cap s) = (s', Ok tt)) in E.
  set (z := set_kcap k cap s) in *.
  assert (RZ : rdy z). { destruct R as [[e1 e2 e3 e4 e5 e6 e7 e8] r2 r3 r4 r5 r6 r7]. constructor; auto. constructor; auto. }
  assert (VZ : AV z). { intros j. cbn. unfold upd. destruct (Nat.eqb_spec j k) as [->|]; [apply xsubq_eq; reflexivity | apply V]. }
  assert (OT : forall j, j <> k -> no_idle s j -> no_idle z j).
  { intros j N H P. change (putters z j) with (putters s j) in P. specialize (H P). unfold room in *. change (qs z (QStore j)) with (qs s (QStore j)). assert (K : kcap z j = kcap s j). { cbn. unfold upd. destruct (Nat.eqb_spec j k); congruence. } rewrite K. exact H. }
  destruct (xleb (kcap s k) cap) eqn:L; cbn [when] in E.
  - apply get_inv in E. destruct (rescan_to_keeps _ _ _ _ _ RZ VZ E) as ((A & B) & _ & C). split; [exact A|]. split; [intros j N H; apply B; auto|]. split; [|discriminate]. intros _. apply C. auto.
  - injection E as <-. split; [apply WA_same; auto|]. split; auto. split; [discriminate|]. intros _ H P. change (putters z k) with (putters s k) in P. specialize (H P). unfold room in *.
    change (qs z (QStore k)) with (qs s (QStore k)). assert (K : kcap z k = cap). { cbn. unfold upd. rewrite Nat.eqb_refl. reflexivity. } rewrite K.
    apply xltb_false_iff in H. apply xltb_false_iff. destruct (kcap s k) as [x|], cap as [y|]; cbn in L, H |- *; auto; try discriminate; try contradiction.
    destruct (Qlt_le_dec y x) as [q|q]; [lra|]. apply Qle_bool_iff in q. congruence.
Qed.
Lemma tidy_step : forall s n o s' r, reachable s -> reachable s' -> wf s o -> no_touch s o -> exec n o s = (s', r) -> (forall e, r = Er e -> storeless o = true) ->
  ((forall k, no_missed s k) -> forall k, no_missed s' k) /\ ((forall k, no_idle s k) -> forall k, no_idle s' k).
Proof.
  intros s n o s' r RS RS' WF NT E HE. pose proof (reach_p_QI _ _ RS) as Q. pose proof (reach_p_one _ _ RS) as O. pose proof (rdy_of _ Q O) as RD.
  pose proof (reach_p_QI _ _ RS') as Q'. pose proof (reach_p_one _ _ RS') as O'. pose proof (rdy_of _ Q' O') as RD'. pose proof (reachable_AV _ RS) as V.
  assert (GW : W s s' -> ((forall k, no_missed s k) -> forall k, no_missed s' k) /\ ((forall k, no_idle s k) -> forall k, no_idle s' k)).
  { intros (A & B). split; intros H k; [apply WA_use with s; auto | apply B; auto]. }
  destruct (storeless o) eqn:SL.
  { assert (X : (exists c f, o = OTouch c f) \/ forall c f, o <> OTouch c f) by (destruct o; eauto; right; discriminate). destruct X as [(c & f & ->)|X].
    - cbn [exec] in E. injection E as <- _. split; intros H k; [|exact (H k)]. intros d i D I. rewrite comps_m_comp. destruct (Nat.eqb_spec d c) as [->|N]; [|apply (H k); auto]. exact (NT c f eq_refl k i D I).
    - apply GW, W_down. pose proof (dn_exec n o SL X s) as Y. rewrite E in Y. exact Y. }
  assert (r = Ok tt) by (destruct r as [[]|e]; auto; specialize (HE e eq_refl); discriminate). subst r. clear HE.
  destruct o; try discriminate.
  - (* from_store *) cbn [exec] in E. destruct (from_keeps _ _ _ _ _ _ _ _ _ _ _ _ Q O E) as [X|(FN & KN & RG & CF & FI)]; [apply GW; exact X|]. apply find_item_none in FN. destruct FN as (_ & FN).
    assert (TK : forall k, In c (takers s' k) <-> In k stores). { intros k. unfold takers. pose proof (gi_mem _ _ (qi_g _ Q') (QFrom k) c eq_refl) as G. unfold mem in G. cbn [lst] in G. rewrite CF in G. unfold none in G. tauto. }
    split.
    + intros H k d i D I. destruct (Nat.eq_dec d c) as [->|N]; [|eapply Reg_missed; eauto]. rewrite FI. apply TK in D. apply (FN k); auto. destruct RG as (_ & RG & _). unfold items in *. rewrite RG in I. exact I.
    + intros H k P. rewrite (Reg_room _ _ _ _ RG). apply H. destruct (nonempty_in _ P) as (x & X). intros Z.
      assert (x <> c). { intros ->. destruct stores as [|k0 t]; [congruence|]. apply (ry_one _ RD' c k0 k); auto. apply TK. left; auto. }
      destruct RG as (_ & _ & _ & RG). apply (RG k x) in X; auto. rewrite Z in X. destruct X.
  - (* to_store *) cbn [exec] in E. destruct (to_keeps _ _ _ _ _ _ _ _ _ _ _ _ Q O E) as [X|(FN & KN & RG & CF)]; [apply GW; exact X|].
    assert (TK : forall k, In c (putters s' k) <-> In k stores). { intros k. unfold putters. pose proof (gi_mem _ _ (qi_g _ Q') (QTo k) c eq_refl) as G. unfold mem in G. cbn [lst] in G. rewrite CF in G. unfold none in G. tauto. }
    split.
    + intros H k d j D I. assert (d <> c). { intros ->. destruct stores as [|k0 t]; [congruence|]. apply (ry_one _ RD' c k k0); auto. apply TK. left; auto. } eapply Reg_missed; eauto.
    + intros H k P. rewrite (Reg_room _ _ _ _ RG). destruct (nonempty_in _ P) as (x & X). destruct (Nat.eq_dec x c) as [->|N].
      * rewrite <- AV_room by auto. apply FN, TK, X.
      * apply H. intros Z. destruct RG as (_ & _ & _ & RG). apply (RG k x) in X; auto. rewrite Z in X. destruct X.
  - (* enter *) cbn [exec] in E. destruct (enter_cases _ _ _ _ _ _ _ RD E) as [(_ & F & EN & R1)|(e & X & _)]; [|discriminate]. apply GW. split; [eapply WA_enters; eauto | eapply WB_enters; eauto].
  - (* leave *) cbn [exec] in E. destruct (leave_ok _ _ _ _ _ RD E) as (I & L & _ & _). apply GW. eapply W_leaves; eauto.
  - (* set_capacity *) destruct (store_cap_ok _ _ _ _ _ RD V E) as (A & B & C & D). split; intros H j; [apply WA_use with s; auto|].
    destruct (Nat.eq_dec j k) as [->|N]; auto. destruct (xleb (kcap s k) cap); auto.
  - (* rescan *) cbn [exec] in E. apply GW. eapply rescan_keeps; eauto.
  - (* filter *) destruct (filter_ok _ _ _ _ _ RD Q E) as (A & B & C). split; intros H k; [|apply A; auto]. destruct (in_dec Nat.eq_dec k (c_from (comps s c))); auto.
  - (* the end of a process *) apply GW, W_down. pose proof (dn_end n s) as Y. rewrite E in Y. exact Y.
Qed.
Lemma tidy_inv : forall s, tidy s -> (forall k, no_missed s k) /\ forall k, no_idle s k.
Proof.
  induction 1 as [t0 R sv kc hp y d F | s n o s' r H IH WF NT E S].
  - split; intros k; [intros x i [] | intros N; destruct N; reflexivity].
  - assert (T' : tidy s') by (eapply td_call; eauto). destruct (tidy_step s n o s' r (tidy_reach _ H) (tidy_reach _ T') WF NT E) as (A & B). { intros e X. apply (S e X). }
    destruct IH. auto.
Qed.
(** nobody waits in from_store for an item that is there *)
Theorem C73_no_missed_item : forall s d k i, tidy s -> In d (takers s k) -> In i (items s k) -> c_filter (comps s d) i = false.
Proof. intros s d k i H. apply (tidy_inv s H). Qed.
(** nobody waits in to_store while there is room *)
Theorem C73_no_idle_room : forall s w k, tidy s -> In w (putters s k) -> xle (kmav s k) (Fin 0).
Proof.
  intros s w k H I. apply xltb_false_iff. rewrite AV_room by (apply reachable_AV, tidy_reach, H). apply (tidy_inv s H). intros Z. rewrite Z in I. destruct I.
Qed.
(** rescan(), and filter() for the stores of the component, repair the line of a store, whatever happened before *)
Theorem C73_rescan : forall s n k s', reachable s -> exec n (ORescan k) s = (s', Ok tt) -> forall d i, In d (takers s' k) -> In i (items s' k) -> c_filter (comps s' d) i = false.
Proof. intros s n k s' R E. cbn [exec] in E. eapply rescan_keeps; eauto. apply rdy_of; [eapply reach_p_QI | eapply reach_p_one]; eauto. Qed.
Theorem C73_filter : forall s n c f s' k, reachable s -> exec n (OFilter c f) s = (s', Ok tt) -> In c (takers s k) -> forall d i, In d (takers s' k) -> In i (items s' k) -> c_filter (comps s' d) i = false.
Proof.
  intros s n c f s' k R E D. pose proof (reach_p_QI _ _ R) as Q. destruct (filter_ok n s c f s' (rdy_of _ Q (reach_p_one _ _ R)) Q E) as (_ & A & _). apply A.
  apply (gi_mem _ _ (qi_g _ Q) (QFrom k) c eq_refl). exact D.
Qed.
(** set_capacity() to at least the old capacity serves everybody for whom there is room now, whatever happened before *)
Theorem C73_capacity : forall s n k cap s' w, reachable s -> exec n (OStoreCap k cap) s = (s', Ok tt) -> xle (kcap s k) cap -> In w (putters s' k) -> xle (kmav s' k) (Fin 0).
Proof.
  intros s n k cap s' w R E L I. pose proof (reach_p_QI _ _ R) as Q. pose proof (reachable_AV _ R) as V. destruct (store_cap_ok n s k cap s' (rdy_of _ Q (reach_p_one _ _ R)) V E) as (_ & _ & A & _).
  apply xltb_false_iff. destruct (AV_exec _ _ _ _ _ V E) as (V' & _). rewrite AV_room by auto. apply A; [|intros Z; rewrite Z in I; destruct I].
  apply xltb_false_iff in L. unfold xltb in L. apply negb_false_iff in L. exact L.
Qed.

(** ** examples *)
Definition untouched (o : op) : bool := match o with OTouch _ _ => false | _ => true end.
Fixpoint tidyb (l : list op) (s : env) : bool :=
  match l with [] => true | o :: t => match exec 19 o s with (s', Ok _) => wfb s o && untouched o && tidyb t s' | _ => false end end.
Fixpoint ends (l : list op) (s : env) : env := match l with [] => s | o :: t => ends t (fst (exec 19 o s)) end.
Lemma tidyb_tidy : forall l s, tidy s -> tidyb l s = true -> tidy (ends l s).
Proof.
  induction l as [|o l IH]; cbn [tidyb ends]; intros s H K; auto. destruct (exec 19 o s) as [s' [[]|e]] eqn:E; [|discriminate]. cbn [fst].
  apply andb_true_iff in K. destruct K as (K & K2). apply andb_true_iff in K. destruct K as (K1 & KU). apply IH; auto.
  eapply td_call; eauto using wfb_wf; [|discriminate]. intros c f ->. discriminate.
Qed.
(** store 0 (room for 2) is full and 3 waits to put item 14 into it; 1 and 2 wait for items they accept *)
Example C73_case : let s := ends shop envk in
  tidy s /\ takers s 0 = [1; 2]%nat /\ putters s 0 = [3%nat] /\ items s 0 = [11; 12]%nat /\ Qred (match kmav s 0 with Fin q => q | PInf => 99 end) = 0 /\ c_filter (comps s 2) 13%nat = true.
Proof. intros s. split; [apply tidyb_tidy; [apply td_start, rs0_fresh | vm_compute; reflexivity]|]. repeat split; vm_compute; reflexivity. Qed.
(** then item 13 is put into store 1: 2 gets it at once; and the capacity of store 0 is raised: 3 can go on *)
Definition shop3 : list op := shop ++ [OEnterStore 13 1 PTail; OStoreCap 0 (Fin 5)].
Example C73_case_handed : let s := ends shop3 envk in
  tidy s /\ takers s 0 = [1%nat] /\ putters s 0 = [] /\ items s 0 = [11; 12; 14]%nat /\ items s 1 = [] /\ c_fitem (comps s 2) = Some 13%nat /\ c_status (comps s 3) = Scheduled.
Proof. intros s. split; [apply tidyb_tidy; [apply td_start, rs0_fresh | vm_compute; reflexivity]|]. repeat split; vm_compute; reflexivity. Qed.
(** the calls of the other theorems, in states with people in line *)
Example C73_case_calls : let s := stp any envk (shop ++ [OTouch 2 (is 12)]) in
  reachable s /\ snd (exec 19 (ORescan 0) s) = Ok tt /\ snd (exec 19 (OFilter 1 (is 11)) s) = Ok tt /\ snd (exec 19 (OStoreCap 0 (Fin 3)) s) = Ok tt /\
  In 2%nat (takers s 0) /\ In 12%nat (items s 0) /\ c_filter (comps s 2) 12%nat = true /\ ~ In 12%nat (items (fst (exec 19 (ORescan 0) s)) 0) /\ takers (fst (exec 19 (ORescan 0) s)) 0 = [1%nat].
Proof.
  intros s. split; [apply stp_reach with (P := fun _ _ => True); auto using rs0_fresh; vm_compute; reflexivity|]. do 3 (split; [vm_compute; reflexivity|]).
  split; [assert (X : takers s 0 = [1; 2]%nat) by (vm_compute; reflexivity); rewrite X; cbn; auto|]. split; [assert (X : items s 0 = [11; 12]%nat) by (vm_compute; reflexivity); rewrite X; cbn; auto|].
  split; [vm_compute; reflexivity|]. split; [|vm_compute; reflexivity]. assert (X : items (fst (exec 19 (ORescan 0) s)) 0 = [11; 14]%nat) by (vm_compute; reflexivity). rewrite X. cbn. intros [Y|[Y|[]]]; discriminate.
Qed.
(** ** after an exception *)
Lemma reachable_step : forall s n o s' r, reachable s -> wf s o -> exec n o s = (s', r) -> (forall e, r = Er e -> caught o e /\ calm o) -> reachable s'.
Proof. intros s n o s' r (t0 & R & sv & kc & hp & y & d & F & K) WF E C. exists t0, R, sv, kc, hp, y, d. split; auto. eapply rpp_step; eauto. Qed.
(** 3 waits to put an item that is already in the store; another item leaves: the exception of that call leaves room free with 3 still in line *)
Definition shop4 : list op := [mk 1; mk 2; mk 3; go; OStep; to 1 [0%nat] 11; OStep; to 2 [0%nat] 12; OStep; to 3 [0%nat] 11].
Theorem C73_exception_refuted : exists s o s', reachable s /\ wf s o /\ exec 19 o s = (s', Er ValueErr) /\ reachable s' /\
  In 3%nat (putters s' 0) /\ c_status (comps s' 3) = Requesting /\ ~ xle (kmav s' 0) (Fin 0) /\ In 12%nat (items s 0) /\ ~ In 12%nat (items s' 0).
Proof.
  set (s := stp any envk shop4). set (o := OLeaveStore 12 0).
  assert (R : reachable s) by (apply stp_reach with (P := fun _ _ => True); auto using rs0_fresh; vm_compute; reflexivity).
  assert (WF : wf s o) by (apply wfb_wf; vm_compute; reflexivity).
  assert (E : exec 19 o s = (fst (exec 19 o s), Er ValueErr)). { assert (X : snd (exec 19 o s) = Er ValueErr) by (vm_compute; reflexivity). rewrite <- X. apply surjective_pairing. }
  exists s, o, (fst (exec 19 o s)). split; [exact R|]. split; [exact WF|]. split; [exact E|].
  split. { apply (reachable_step _ _ _ _ _ R WF E). intros e X. injection X as <-. split; [|exact Logic.I]. repeat split; discriminate. }
  assert (P : putters (fst (exec 19 o s)) 0 = [3%nat]) by (vm_compute; reflexivity). split; [rewrite P; left; auto|]. split; [vm_compute; reflexivity|].
  split. { intros X. apply xltb_false_iff in X. revert X. vm_compute. discriminate. }
  assert (I1 : items s 0 = [11; 12]%nat) by (vm_compute; reflexivity). assert (I2 : items (fst (exec 19 o s)) 0 = [11%nat]) by (vm_compute; reflexivity).
  split; [rewrite I1; cbn; auto | rewrite I2; cbn; intros [X|[]]; discriminate].
Qed.
Print Assumptions C73_no_missed_item.
Print Assumptions C73_no_idle_room.
Print Assumptions C73_rescan.
Print Assumptions C73_filter.
Print Assumptions C73_capacity.
Print Assumptions C73_exception_refuted.
