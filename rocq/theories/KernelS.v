(** The standby lists: whoever is in one of them is on standby, is in it once, and is in no requesters or
    waiters queue. *)
From Coq Require Import QArith Lqa List Bool Arith ZArith Lia.
From Verif Require Import Base Kernel Wp KernelE KernelL KernelX KernelT KernelU KernelR KernelQ.
Import ListNotations.
Open Scope Q_scope.

Lemma NoDup_app_inv : forall (a b : list nat), NoDup (a ++ b) -> NoDup a /\ NoDup b /\ forall d, In d a -> ~ In d b.
Proof.
  induction a as [|x a IH]; cbn; intros b H; [split; [constructor|]; auto|]. inversion H; subst. destruct (IH b H3) as (A & B & C).
  rewrite in_app_iff in H2. split; [constructor; auto | split; auto]. intros d [->|I]; auto.
Qed.
Lemma NoDup_app_intro : forall (a b : list nat), NoDup a -> NoDup b -> (forall d, In d a -> ~ In d b) -> NoDup (a ++ b).
Proof.
  induction a as [|x a IH]; cbn; intros b A B C; auto. inversion A; subst. constructor; auto. rewrite in_app_iff. intros [I|I]; auto. apply (C x); auto.
Qed.
Definition LS (s : env) (d : nat) : Prop := In d (stby s ++ pend s).
Record SB (s : env) : Prop := {
  sb_nd : NoDup (stby s ++ pend s);
  sb_st : forall c, LS s c -> c_status (comps s c) = Standby /\ c_onev (comps s c) = false;
  sb_q : forall q c, regq q = true -> mem s q c -> ~ LS s c;
  sb_m : ~ LS s main }.
(** the standby lists are left alone and nobody is put on standby *)
Definition still (s s' : env) : Prop :=
  SB s' /\ stby s' = stby s /\ pend s' = pend s /\ forall d, c_status (comps s' d) = Standby -> c_status (comps s d) = Standby.
Definition R3 (s s' : env) : Prop := SB s -> still s s'.
(** the same, when c is not in a standby list *)
Definition Rc (c : nat) (s s' : env) : Prop := SB s -> ~ LS s c -> still s s'.
Lemma still_refl : forall s, SB s -> still s s. Proof. intros s H. split; [exact H|]. repeat split; auto. Qed.
Lemma still_LS : forall s s' d, still s s' -> (LS s' d <-> LS s d).
Proof. intros s s' d (_ & A & B & _). unfold LS. rewrite A, B. tauto. Qed.
Lemma still_trans : forall a b c, still a b -> still b c -> still a c.
Proof. intros a b c (A1 & A2 & A3 & A4) (B1 & B2 & B3 & B4). split; [exact B1|]. split; [congruence|]. split; [congruence | auto]. Qed.
Lemma R3_po : preorder R3.
Proof. constructor; unfold R3; auto using still_refl. intros a b c A B H. eapply still_trans; eauto. apply B, A, H. Qed.
Lemma Rc_po : forall c, preorder (Rc c).
Proof.
  constructor; unfold Rc; auto using still_refl. intros a b d A B H N. specialize (A H N). eapply still_trans; eauto.
  apply B; [apply A|]. rewrite (still_LS _ _ _ A). auto.
Qed.
Lemma R3_Rc : forall A c (m : M A), frames R3 m -> frames (Rc c) m.
Proof. intros A c m F s H _. apply F; auto. Qed.

Lemma s_comp : forall c f s, c_status (f (comps s c)) = c_status (comps s c) -> c_onev (f (comps s c)) = c_onev (comps s c) -> R3 s (m_comp c f s).
Proof.
  intros c f s E1 E2 [A B C D]. split; [constructor; auto|split; [auto | split; [auto|]]].
  - intros d L. destruct (Nat.eq_dec d c) as [->|]; [rewrite comps_same, E1, E2; auto | rewrite comps_diff by auto; auto].
  - intros d. destruct (Nat.eq_dec d c) as [->|]; [rewrite comps_same, E1; auto | rewrite comps_diff by auto; auto].
Qed.
Lemma s_set : forall c f s, c_status (f (comps s c)) <> Standby \/ c_status (f (comps s c)) = c_status (comps s c) -> Rc c s (m_comp c f s).
Proof.
  intros c f s E [A B C D] N. split; [constructor; auto|split; [auto | split; [auto|]]].
  - intros d L. destruct (Nat.eq_dec d c) as [->|]; [destruct (N L) | rewrite comps_diff by auto; auto].
  - intros d. destruct (Nat.eq_dec d c) as [->|]; [rewrite comps_same | rewrite comps_diff by auto; auto].
    intros K. destruct E; congruence.
Qed.
Lemma s_same : forall s s', comps s' = comps s -> qs s' = qs s -> stby s' = stby s -> pend s' = pend s -> R3 s s'.
Proof.
  intros s s' E1 E2 E3 E4 [A B C D]. unfold still, LS, mem in *. rewrite E1, E3, E4. split; [|auto].
  constructor; unfold LS, mem; rewrite ?E1, ?E2, ?E3, ?E4; auto.
Qed.
Lemma s_mq : forall q f s, (regq q = true -> forall c, In c (map fst (f (qs s q))) -> In c (map fst (qs s q)) \/ ~ LS s c) -> R3 s (m_q q f s).
Proof.
  intros q f s H [A B C D]. split; [constructor; auto | split; auto].
  intros q' c Q M. unfold mem in M. rewrite qs_m_q in M. destruct (qeqb_spec q' q) as [->|]; [|eapply C; eauto].
  destruct (H Q c M) as [K|K]; [eapply C; eauto | auto].
Qed.
Lemma s_q_leave : forall q c, frames R3 (q_leave q c).
Proof.
  intros. unfold q_leave. fgo R3_po. apply s_mq. intros _ d I. left.
  change (In d (keys (adel c (qs s q)))) in I. apply keys_adel_in in I. tauto.
Qed.
Lemma s_q_enter : forall q c p, frames (Rc c) (q_enter q c p).
Proof.
  intros. unfold q_enter. fgo (Rc_po c). intros H N. apply s_mq; auto. intros _ d I. apply in_ins_sorted in I. destruct I as [->|]; auto.
Qed.
Lemma s_storeq : forall k f s, R3 s (m_q (QStore k) f s).
Proof. intros. apply s_mq. discriminate. Qed.
Ltac fsf := first
  [ apply s_same; reflexivity
  | apply s_comp; reflexivity
  | apply s_storeq
  | apply s_set; cbn; solve [left; discriminate | right; reflexivity]
  | intros ? ?; apply s_same; try reflexivity; assumption
  | intros ? ?; apply s_storeq; assumption ].
Ltac f3 := fgo R3_po; try (solve [fsf]).
Ltac fc c := let P := constr:(Rc_po c) in fgo P; try (solve [fsf]).
Lemma s_remove1_out : forall c l, ~ In c l -> remove1 c l = l.
Proof. induction l as [|x t IH]; cbn; auto. intros H. destruct (Nat.eqb_spec x c); [tauto|]. rewrite IH; auto. Qed.
Lemma s_remove1_in : forall c l d, In d (remove1 c l) -> In d l.
Proof. induction l as [|x t IH]; cbn; auto. intros d. destruct (Nat.eqb_spec x c); cbn; auto. intros [?|?]; auto. Qed.
Lemma s_remove1_nd : forall c l, NoDup l -> NoDup (remove1 c l) /\ ~ In c (remove1 c l).
Proof.
  induction l as [|x t IH]; intros N; cbn; auto. inversion N; subst. destruct (Nat.eqb_spec x c) as [->|]; auto.
  destruct (IH H2). split; [constructor; auto; intros I; apply s_remove1_in in I; auto|]. intros [?|?]; auto.
Qed.
Lemma s_remove1_other : forall c l d, In d l -> d <> c -> In d (remove1 c l).
Proof.
  induction l as [|x t IH]; cbn; auto. intros d I N. destruct (Nat.eqb_spec x c) as [->|]; cbn; destruct I as [->|I]; auto. congruence.
Qed.
Lemma s_remove : forall c, frames (Rc c) (remove c).
Proof.
  intros c. unfold remove. fc c; intros H N; apply s_same; auto; cbn; apply s_remove1_out; intros I; apply N; unfold LS; rewrite in_app_iff; auto.
Qed.
Lemma s_push_in : forall c t p u, frames (Rc c) (push c t p u).
Proof. intros. unfold push. fc c. Qed.
Lemma s_reschedule : forall c t p u cap, frames (Rc c) (reschedule c t p u cap).
Proof. intros. unfold reschedule. fc c. apply s_push_in. Qed.
#[export] Hint Resolve s_q_leave s_q_enter s_remove s_reschedule R3_Rc : ss.
Lemma s_check_fail : forall c, frames R3 (check_fail c).
Proof. intros. unfold check_fail, leave_req. f3; auto with ss. Qed.
Lemma s_q_prio : forall q c, frames R3 (q_prio q c). Proof. intros. unfold q_prio. f3. Qed.
Lemma s_leave_req : forall r c, frames R3 (leave_req r c). Proof. intros. unfold leave_req. f3; auto with ss. Qed.
#[export] Hint Resolve s_check_fail s_q_prio s_leave_req : ss.
Lemma s_c_try : forall rt c, (forall r, frames R3 (rt r)) -> frames (Rc c) (c_try rt c).
Proof.
  intros rt c H. unfold c_try, claim. fc c; auto with ss; [apply (g_honor_any _ (Rc_po c)) | apply (g_honor_all _ (Rc_po c))].
Qed.
Lemma s_rloop : forall rt n r an fi p1 mx, (forall r, frames R3 (rt r)) -> frames R3 (rloop (c_try rt) n r an fi p1 mx).
Proof.
  intros rt. induction n; intros r an fi p1 mx H; cbn [rloop]; destruct mx as [[c p]|];
    try (apply (fr_raise _ R3_po)); try (apply (fr_ret _ R3_po)).
  intros s SBs. apply wp_fst with (I := fun s' => still s s').
  apply wp_bind, wp_get. apply wp_if; intros C; [apply wp_ret, still_refl; auto|]. apply wp_if; intros C2; [apply wp_ret, still_refl; auto|].
  apply wp_if; intros C3; [apply wp_ret, still_refl; auto|]. apply wp_bind, wp_get. apply wp_if; intros I; [|apply wp_raise, still_refl; auto].
  cbv zeta. apply wp_bind. apply inq_iff in I.
  assert (N : ~ LS s c) by (eapply (sb_q _ SBs (QReq r) c eq_refl); exact I).
  eapply wp_conseq; [apply (frames_wp _ _ _ s (s_c_try rt c H)) | |]; cbv beta; unfold Rc; [|auto].
  intros _ s1 K. specialize (K SBs N). apply wp_bind, wp_get.
  eapply wp_conseq; [eapply (frames_wp _ _ _ s1 (IHn _ _ _ _ _ H)) | |]; cbv beta; unfold R3; intros; eapply still_trans; eauto; apply H0, K.
Qed.
Lemma s_r_try : forall n r, frames R3 (r_try n r).
Proof. induction n; intros; cbn; f3; auto; apply s_rloop; auto. Qed.
#[export] Hint Resolve s_r_try : ss.
Lemma s_release1 : forall n c r q b, frames R3 (release1 n c r q b).
Proof. intros. unfold release1. f3; auto with ss. Qed.
#[export] Hint Resolve s_release1 : ss.
Lemma s_release : forall n c a, frames R3 (release n c a). Proof. intros. unfold release. f3; auto with ss. Qed.
#[export] Hint Resolve s_release : ss.
Lemma s_release_claimers : forall f n r mx, frames R3 (release_claimers f n r mx).
Proof. induction n; intros r mx; cbn [release_claimers]; destruct mx as [[c p]|]; f3; auto with ss. Qed.
Lemma s_res_release : forall n r q, frames R3 (res_release n r q).
Proof. intros. unfold res_release. f3; auto using s_release_claimers with ss. Qed.
Lemma s_set_cap : forall n r q, frames R3 (set_cap n r q). Proof. intros. unfold set_cap. f3; auto with ss. Qed.
Lemma s_c_trywait : forall c, frames (Rc c) (c_trywait c).
Proof. intros. unfold c_trywait, leave_wait. fc c; auto with ss. Qed.
(** those waiting stay out of the standby lists *)
Lemma s_s_trywait : forall l m s, (forall c, In c l -> ~ LS s c) -> SB s ->
  wp (s_trywait l m) (fun _ s' => still s s') (fun _ s' => still s s') s.
Proof.
  induction l as [|c t IH]; intros m s N H; cbn [s_trywait]; [apply wp_ret, still_refl; auto|].
  apply wp_bind. eapply wp_conseq; [apply (frames_wp _ _ _ s (s_c_trywait c)) | |]; cbv beta; unfold Rc; [|intros; apply H0; auto; apply N; left; auto].
  intros b s1 K. specialize (K H (N c (or_introl eq_refl))).
  assert (T : forall m, wp (s_trywait t m) (fun _ s' => still s s') (fun _ s' => still s s') s1).
  { intros m'. assert (N1 : forall d, In d t -> ~ LS s1 d) by (intros d I; rewrite (still_LS _ _ _ K); apply N; right; auto).
    assert (K1 : SB s1) by apply K.
    eapply wp_conseq; [apply (IH m' s1 N1 K1) | |]; cbv beta; intros; eapply still_trans; eauto. }
  apply wp_if; intros _; auto. destruct m as [m|]; auto. apply wp_if; intros _; auto. 
Qed.
Lemma s_st_trywait : forall st m, frames R3 (st_trywait st m).
Proof.
  intros st m s H. apply wp_fst with (I := fun s' => still s s'). unfold st_trywait. apply wp_bind, wp_get.
  apply s_s_trywait; auto. intros c I. apply (sb_q _ H (QWait st) c eq_refl). exact I.
Qed.
Lemma s_st_set : forall st v, frames R3 (st_set st v).
Proof. intros. unfold st_set, set_sval. f3; auto using s_st_trywait. Qed.
Lemma s_st_trigger : forall st v a m, frames R3 (st_trigger st v a m).
Proof. intros. unfold st_trigger, set_sval. f3; auto using s_st_trywait. Qed.
Lemma s_leave_from : forall d, frames R3 (leave_from d). Proof. intros. unfold leave_from. f3; auto with ss. Qed.
Lemma s_leave_to : forall d, frames R3 (leave_to d). Proof. intros. unfold leave_to. f3; auto with ss. Qed.
Lemma s_give : forall d c, frames (Rc d) (give d c). Proof. intros. unfold give. fc d; auto with ss. Qed.
#[export] Hint Resolve s_leave_from s_leave_to s_give : ss.
(** sequencing with a component known not to be in the lists *)
Lemma s_seq3 : forall A (m : M A) s (Q : A -> env -> Prop) s1, frames R3 m -> still s s1 -> (forall a s', still s s' -> Q a s') ->
  wp m Q (fun _ s' => still s s') s1.
Proof.
  intros A m s Q s1 F K H. eapply wp_conseq; [apply (frames_wp _ _ _ s1 F) | |]; cbv beta; unfold R3; intros; [apply H|];
    (eapply still_trans; [exact K | apply H0, K]).
Qed.
Lemma s_seqc : forall A c (m : M A) s (Q : A -> env -> Prop) s1, frames (Rc c) m -> ~ LS s c -> still s s1 -> (forall a s', still s s' -> Q a s') ->
  wp m Q (fun _ s' => still s s') s1.
Proof.
  intros A c m s Q s1 F N K H.
  assert (N1 : ~ LS s1 c) by (rewrite (still_LS _ _ _ K); auto).
  eapply wp_conseq; [apply (frames_wp _ _ _ s1 F) | |]; cbv beta; unfold Rc; intros; [apply H|];
    (eapply still_trans; [exact K | apply H0; [apply K | auto]]).
Qed.
Lemma s_item : forall n, (forall k c w, frames R3 (item_enter n k c w)) /\ (forall k c, frames R3 (item_leave n k c)).
Proof.
  induction n as [|n [IH1 IH2]]; split; intros k c; intros; cbn [item_enter item_leave]; try (apply (fr_raise _ R3_po)).
  - intros s H. apply wp_fst with (I := fun s' => still s s').
    apply wp_bind, wp_get. apply wp_if; intros _; [apply wp_raise, still_refl; auto|].
    apply wp_if; intros _; [apply wp_raise, still_refl; auto|]. apply wp_bind, wp_get.
    apply wp_if; intros _; [apply wp_raise, still_refl; auto|]. unfold set_kmav. apply wp_bind, wp_put, wp_bind, wp_put.
    match goal with |- wp _ _ _ ?z => set (s0 := z) end.
    assert (K0 : still s s0).
    { unfold s0. match goal with |- still s (m_q _ _ ?z) => set (y := z) end.
      assert (Y : still s y) by (apply s_same; auto). eapply still_trans; [exact Y|]. apply s_storeq. apply Y. }
    clearbody s0. apply wp_bind, wp_get. destruct (find _ _) as [d|] eqn:F; [|apply wp_ret; auto].
    apply find_some in F. destruct F as (F & _).
    assert (N : ~ LS s d). { rewrite <- (still_LS _ _ _ K0). apply (sb_q _ (proj1 K0) (QFrom k) d eq_refl); exact F. }
    apply wp_bind. apply s_seq3; auto. intros _ s1 K1. apply wp_bind. apply s_seq3; auto with ss.
    intros _ s2 K2. apply s_seqc with (c := d); auto with ss.
  - intros s H. apply wp_fst with (I := fun s' => still s s').
    apply wp_bind, wp_get. apply wp_if; intros _; [apply wp_raise, still_refl; auto|].
    unfold set_kmav. apply wp_bind, wp_put, wp_bind, wp_get, wp_bind, wp_put.
    match goal with |- wp _ _ _ ?z => set (s0 := z) end.
    assert (K0 : still s s0).
    { unfold s0. match goal with |- still s (_ ?z) => set (y := z) end.
      assert (Y : still s y) by (apply s_storeq; auto). eapply still_trans; [exact Y|]. apply s_same; auto. apply Y. }
    clearbody s0. apply wp_if; intros _; [|apply wp_ret; auto].
    apply wp_bind, wp_get. destruct (hd_error _) as [w|] eqn:F; [|apply wp_ret; auto].
    assert (N : ~ LS s w).
    { rewrite <- (still_LS _ _ _ K0). apply (sb_q _ (proj1 K0) (QTo k) w eq_refl). unfold mem.
      destruct (map fst (qs s0 (QTo k))); [discriminate|]. injection F as ->. left; auto. }
    apply wp_bind, wp_get. destruct (c_titem (comps s0 w)) as [i|]; [|apply wp_raise; auto]. apply wp_bind, wp_get, wp_bind.
    apply s_seq3; auto. intros _ s1 K1. apply wp_bind. apply s_seq3; auto with ss.
    intros _ s2 K2. apply s_seqc with (c := w); auto. fc w; auto with ss.
Qed.
Lemma s_item_enter : forall n k c w, frames R3 (item_enter n k c w). Proof. intros. apply s_item. Qed.
Lemma s_item_leave : forall n k c, frames R3 (item_leave n k c). Proof. intros. apply s_item. Qed.
#[export] Hint Resolve s_item_enter s_item_leave : ss.
Lemma s_to_try : forall n c i p ks, frames (Rc c) (to_try n c i p ks).
Proof. induction ks; cbn; fc c; auto with ss. Qed.
Lemma s_rescan_items : forall n k d l, frames (Rc d) (rescan_items n k d l).
Proof. induction l; cbn; fc d; auto with ss. Qed.
Lemma s_rescan : forall n k, frames R3 (rescan n k).
Proof.
  intros. unfold rescan. apply (fr_bind _ R3_po); [apply (fr_get _ R3_po)|]. intros ds. apply (fr_mfor _ R3_po). intros a s H. apply wp_fst with (I := fun s' => still s s').
  apply wp_bind, wp_get. apply wp_when; intros I; [|apply still_refl; auto]. apply inq_iff in I.
  assert (N : ~ LS s a) by (apply (sb_q _ H (QFrom k) _ eq_refl); exact I).
  apply wp_bind, wp_get. eapply s_seqc; [apply s_rescan_items | | |]; auto using still_refl.
Qed.
Lemma s_set_filter : forall n c f, frames R3 (set_filter n c f).
Proof. intros. unfold set_filter. f3; auto using s_rescan. Qed.
Lemma s_rescan_to_loop : forall n k l, frames R3 (rescan_to_loop n k l).
Proof.
  induction l as [|d t IH]; cbn [rescan_to_loop]; [apply (fr_ret _ R3_po)|]. intros s H. apply wp_fst with (I := fun s' => still s s').
  apply wp_bind, wp_get. apply wp_if; intros I; [|eapply s_seq3; auto using still_refl]. apply inq_iff in I.
  assert (N : ~ LS s d) by (apply (sb_q _ H (QTo k) d eq_refl); exact I).
  apply wp_bind, wp_get, wp_if; intros _; [|apply wp_ret, still_refl; auto].
  eapply s_seqc with (c := d); auto using still_refl. fc d; auto with ss.
Qed.
Lemma s_st_set_cap : forall n k cap, frames R3 (st_set_cap n k cap).
Proof. intros. unfold st_set_cap, set_kmav. f3; auto using s_rescan_to_loop. Qed.
Lemma s_continue : forall n c, frames R3 (continue n c). Proof. intros. unfold continue. f3; auto with ss. Qed.

(** ** Calls on a component that may be on standby *)
(** nobody is put on standby; whoever remains on standby remains in the lists *)
Definition moved (s s' : env) : Prop :=
  SB s' /\ (forall d, LS s' d -> LS s d) /\
  forall d, c_status (comps s' d) = Standby -> c_status (comps s d) = Standby /\ (LS s d -> LS s' d).
(** c has been taken off the standby lists *)
Definition off1 (c : nat) (s s' : env) : Prop :=
  SB s' /\ (forall d, LS s' d -> LS s d) /\ ~ LS s' c /\
  forall d, d <> c -> c_status (comps s' d) = Standby -> c_status (comps s d) = Standby /\ (LS s d -> LS s' d).
(** and has got another status *)
Definition gone (c : nat) (s s' : env) : Prop := off1 c s s' /\ c_status (comps s' c) <> Standby.
Lemma still_moved : forall s s', still s s' -> moved s s'.
Proof.
  intros s s' K. pose proof (fun d => still_LS _ _ d K) as E. destruct K as (A & _ & _ & B).
  split; [auto|]. split; [intros d; apply E|]. intros d S. split; auto. apply E.
Qed.
Lemma moved_trans : forall a b c, moved a b -> moved b c -> moved a c.
Proof.
  intros a b c (A1 & A2 & A3) (B1 & B2 & B3). split; [auto|]. split; [auto|]. intros d S. destruct (B3 d S) as (S1 & L1).
  destruct (A3 d S1) as (S2 & L2). auto.
Qed.
Lemma off1_moved : forall c s a b, off1 c s a -> moved a b -> off1 c s b.
Proof.
  intros c s a b (A1 & A2 & A3 & A4) (B1 & B2 & B3). split; [auto|]. split; [auto|]. split; [auto|].
  intros d N S. destruct (B3 d S) as (S1 & L1). destruct (A4 d N S1). auto.
Qed.
Lemma gone_moved : forall c s a b, gone c s a -> moved a b -> gone c s b.
Proof. intros c s a b (A & B) M. split; [eapply off1_moved; eauto|]. intros K. apply M in K. tauto. Qed.
Lemma gone_done : forall c s s', gone c s s' -> moved s s'.
Proof.
  intros c s s' ((A1 & A2 & A3 & A4) & B). split; [auto|]. split; [auto|]. intros d S. apply A4; auto. congruence.
Qed.
Lemma off1_refl : forall c s, SB s -> ~ LS s c -> off1 c s s.
Proof. intros c s H N. split; [exact H|]. repeat split; auto. Qed.
Lemma off1_set : forall c f s a, off1 c s a -> (c_status (f (comps a c)) <> Standby \/ c_status (f (comps a c)) = c_status (comps a c)) -> off1 c s (m_comp c f a).
Proof. intros c f s a H E. eapply off1_moved; eauto. apply still_moved, s_set; auto; apply H. Qed.
Lemma gone_set : forall c f s a, off1 c s a -> c_status (f (comps a c)) <> Standby -> gone c s (m_comp c f a).
Proof. intros c f s a H E. split; [apply off1_set; auto | rewrite comps_same; auto]. Qed.
Lemma w_remove_S : forall c s (Q : unit -> env -> Prop), SB s -> (forall s', off1 c s s' -> Q tt s') ->
  wp (remove c) Q (fun _ s' => SB s') s.
Proof.
  intros c s Q H K. unfold remove. apply wp_bind, wp_get. destruct (c_onev (comps s c)) eqn:O.
  - assert (N : ~ LS s c). { intros L. apply (sb_st _ H) in L. destruct L. congruence. }
    apply wp_bind, wp_get. destruct (ev_del c (evl s)) as [l'|]; [|apply wp_raise; auto].
    apply wp_bind, wp_put, wp_setc. apply K. apply off1_set; [|right; auto].
    apply off1_moved with (a := s); [apply off1_refl; auto | apply still_moved, s_same; auto].
  - apply wp_bind, wp_stat, wp_when; intros C.
    + apply wp_bind, wp_put, wp_put. apply K. destruct H as [A B D E].
      apply NoDup_app_inv in A. destruct A as (A1 & A2 & A3).
      destruct (s_remove1_nd c _ A1) as (N1 & N2). destruct (s_remove1_nd c _ A2) as (N3 & N4).
      assert (SUB : forall d, In d (remove1 c (stby s) ++ remove1 c (pend s)) -> LS s d).
      { intros d. unfold LS. rewrite !in_app_iff. intros [I|I]; apply s_remove1_in in I; auto. }
      split; [constructor; cbn in *|].
      * apply NoDup_app_intro; auto. intros d I J. apply s_remove1_in in I. apply s_remove1_in in J. eapply A3; eauto.
      * intros d L. apply B. apply SUB. exact L.
      * intros q d Q' M L. apply (D q d Q' M). apply SUB. exact L.
      * intros L. apply E. apply SUB. exact L.
      * split; [exact SUB|]. split.
        -- unfold LS. cbn. rewrite in_app_iff. tauto.
        -- intros d N S. split; auto. unfold LS. cbn. rewrite !in_app_iff. intros [I|I]; [left | right]; apply s_remove1_other; auto.
    + apply steqb_false_iff in C. apply K. apply off1_refl; auto. intros L. apply (sb_st _ H) in L. tauto.
Qed.
Lemma off_seq : forall A c (m : M A) s (Q : A -> env -> Prop) s1, frames (Rc c) m -> off1 c s s1 -> (forall a s', off1 c s s' -> Q a s') ->
  wp m Q (fun _ s' => SB s') s1.
Proof.
  intros A c m s Q s1 F K H. eapply wp_conseq; [apply (frames_wp _ _ _ s1 F) | |]; cbv beta; unfold Rc; intros.
  - apply H. eapply off1_moved; eauto. apply still_moved, H0; apply K.
  - apply H0; apply K.
Qed.
Lemma gone_seq : forall A c (m : M A) s (Q : A -> env -> Prop) s1, frames (Rc c) m -> gone c s s1 -> (forall a s', gone c s s' -> Q a s') ->
  wp m Q (fun _ s' => SB s') s1.
Proof.
  intros A c m s Q s1 F K H. eapply wp_conseq; [apply (frames_wp _ _ _ s1 F) | |]; cbv beta; unfold Rc; intros.
  - apply H. eapply gone_moved; eauto. apply still_moved, H0; apply K.
  - apply H0; apply K.
Qed.
Lemma notin_st : forall c s, SB s -> c_status (comps s c) <> Standby -> ~ LS s c.
Proof. intros c s H N L. apply (sb_st _ H) in L. tauto. Qed.
Lemma s_check_notdata : forall c, frames R3 (check_notdata c). Proof. intros. unfold check_notdata. f3. Qed.
Lemma s_check_notmain : forall c, frames R3 (check_notmain c). Proof. intros. unfold check_notmain. f3. Qed.
#[export] Hint Resolve s_check_notdata s_check_notmain : ss.
Lemma still_seq : forall A (m : M A) (Q : A -> env -> Prop) s, frames R3 m -> SB s -> (forall a s', still s s' -> Q a s') -> wp m Q (fun _ s' => SB s') s.
Proof. intros A m Q s F H K. eapply wp_conseq; [apply (frames_wp _ _ _ s F) | |]; cbv beta; unfold R3; intros; [apply K | ]; apply H0; auto. Qed.
(** deschedule: check that it is not data (or main), remove, withdraw *)
Lemma w_prep_S : forall c (b1 b2 : bool) s (Q : unit -> env -> Prop), SB s -> (forall s', off1 c s s' -> Q tt s') ->
  wp (when b1 (check_notdata c) ;;; when b2 (check_notmain c) ;;; remove c ;;; check_fail c) Q (fun _ s' => SB s') s.
Proof.
  intros c b1 b2 s Q H K. apply wp_bind. apply still_seq; auto; [destruct b1; cbn [when]; auto with ss; apply (fr_ret _ R3_po)|].
  intros _ s1 K1. apply wp_bind.
  apply still_seq; [destruct b2; cbn [when]; auto with ss; apply (fr_ret _ R3_po) | apply K1 |].
  - intros [] s2 K2'. assert (K2 : still s s2) by (eapply still_trans; eauto). clear K2'. apply wp_bind. apply w_remove_S; [apply K2|]. intros s3 K3.
    assert (K4 : off1 c s s3).
    { destruct K3 as (A1 & A2 & A3 & A4). split; [auto|]. pose proof (fun d => still_LS _ _ d K2) as E.
      split; [intros d I; apply E; auto|]. split; auto. intros d N S. destruct (A4 d N S) as (S1 & L1). split; [apply K2; auto|].
      intros L. apply L1, E, L. }
    eapply off_seq with (s := s) (c := c); auto with ss. intros [] s' K'. auto.
Qed.
Lemma w_cur_prep : forall c (m : M unit) s (Q : unit -> env -> Prop), SB s ->
  (forall s', off1 c s s' -> Q tt s') ->
  (c_status (comps s c) <> Current -> wp m Q (fun _ s' => SB s') s) ->
  wp (when (negb (steqb (c_status (comps s c)) Current)) m) Q (fun _ s' => SB s') s.
Proof.
  intros c m s Q H K W. apply wp_when; intros C.
  - apply W. apply negb_true_iff, steqb_false_iff in C. auto.
  - apply K. apply off1_refl; auto. apply negb_false_iff, steqb_iff in C. apply notin_st; auto. congruence.
Qed.
Lemma w_prep1 : forall c s (Q : unit -> env -> Prop), SB s -> (forall s', off1 c s s' -> Q tt s') ->
  wp (check_notdata c ;;; remove c ;;; check_fail c) Q (fun _ s' => SB s') s.
Proof. intros c s Q H K. exact (w_prep_S c true false s Q H K). Qed.
Lemma w_prep2 : forall c s (Q : unit -> env -> Prop), SB s -> (forall s', off1 c s s' -> Q tt s') ->
  wp (check_notdata c ;;; check_notmain c ;;; remove c ;;; check_fail c) Q (fun _ s' => SB s') s.
Proof. intros c s Q H K. exact (w_prep_S c true true s Q H K). Qed.
Lemma w_prep0 : forall c s (Q : unit -> env -> Prop), SB s -> (forall s', off1 c s s' -> Q tt s') ->
  wp (remove c ;;; check_fail c) Q (fun _ s' => SB s') s.
Proof. intros c s Q H K. exact (w_prep_S c false false s Q H K). Qed.
Notation sm m s := (wp m (fun _ s' => moved s s') (fun _ s' => SB s') s).
Lemma wp_assoc : forall A B C (m : M A) (f : A -> M B) (g : B -> M C) Q X s,
  wp (bind (bind m f) g) Q X s -> wp (bind m (fun a => bind (f a) g)) Q X s.
Proof. intros A B C m f g Q X s. unfold wp, bind. destruct (m s) as [s' [a|e]]; auto. Qed.
Lemma wp_assoc2 : forall A B C (m : M A) (f : A -> M B) (g : B -> M C) Q X s,
  wp (bind m (fun a => bind (f a) g)) Q X s -> wp (bind (bind m f) g) Q X s.
Proof. intros A B C m f g Q X s. unfold wp, bind. destruct (m s) as [s' [a|e]]; auto. Qed.
Lemma sm_gone : forall c s m s1, frames (Rc c) m -> gone c s s1 -> wp m (fun (_ : unit) s' => moved s s') (fun _ s' => SB s') s1.
Proof. intros c s m s1 F G. apply gone_seq with (c := c) (s := s); auto. intros _ s' K. eapply gone_done; eauto. Qed.
Lemma s_honor_any : forall c, frames R3 (honor_any c). Proof. intros. apply (g_honor_any _ R3_po). Qed.
Lemma s_honor_all : forall c, frames R3 (honor_all c). Proof. intros. apply (g_honor_all _ R3_po). Qed.
Lemma s_fail_time : forall sp, frames R3 (fail_time sp). Proof. intros []; cbn; f3. Qed.
#[export] Hint Resolve s_honor_any s_honor_all s_fail_time s_rescan s_to_try s_item_enter s_item_leave s_c_trywait : ss.
(** c is off the lists; go on until it gets its new status *)
Ltac ostep c :=
  match goal with
  | |- wp (bind (setc c (w_status _)) _) _ _ _ => apply wp_bind, wp_setc;
      apply sm_gone with (c := c); [fc c; auto with ss | apply gone_set; [auto | discriminate]]
  | |- wp (setc c (w_status _)) _ _ _ => apply wp_setc; eapply gone_done, gone_set; [eassumption | discriminate]
  | K : off1 c ?s ?s1 |- wp (bind (setc c ?f) _) _ _ ?s1 =>
      let K' := fresh in assert (K' : off1 c s (m_comp c f s1)) by (apply off1_set; [exact K | right; reflexivity]);
      apply wp_bind, wp_setc; clear K; revert K'; generalize (m_comp c f s1); intros
  | |- wp (bind (get _) _) _ _ _ => apply wp_bind, wp_get; cbv beta
  | |- wp (raise _) _ _ _ => apply wp_raise; match goal with K : off1 c _ _ |- _ => apply K end
  | |- wp (match ?x with _ => _ end) _ _ _ => first [apply wp_if; intros | destruct x]
  | |- wp (bind _ _) _ _ _ => apply wp_bind; eapply off_seq; [ solve [fc c; auto with ss] | eassumption | intros; cbv beta ]
  end.
Ltac otail c := repeat (ostep c).
Lemma off1_cur : forall c s, SB s -> c_status (comps s c) = Current -> off1 c s s.
Proof. intros. apply off1_refl; auto. apply notin_st; auto. congruence. Qed.
Lemma sm_passivate : forall c s, SB s -> sm (passivate c) s.
Proof.
  intros c s H. unfold passivate. apply wp_bind, wp_stat, wp_bind. apply wp_if; intros C.
  - apply steqb_iff in C. pose proof (off1_cur _ _ H C) as K. apply wp_setc. apply (off1_set c (w_rem (Fin 0))) in K; auto. revert K. generalize (m_comp c (w_rem (Fin 0)) s). intros. otail c.
  - apply (wp_conseq _ _ (fun _ s1 => off1 c s s1) _ (fun _ s' => SB s') _); [|intros [] s1 K; otail c | auto].
    apply wp_assoc, wp_assoc. apply wp_bind, wp_assoc2, w_prep1; auto. intros s1 K. apply wp_bind, wp_get, wp_setc, off1_set; auto.
Qed.
Lemma sm_hold : forall c sp p u i cap s, SB s -> sm (hold c sp p u i cap) s.
Proof.
  intros c sp p u i cap s H. unfold hold. apply wp_bind, wp_stat, wp_bind.
  apply (wp_conseq _ _ (fun _ s1 => off1 c s s1) _ (fun _ s' => SB s') _); [| |auto].
  - apply wp_when; intros C; [apply w_prep1; auto|]. apply off1_refl; auto. apply notin_st; auto.
    intros E. rewrite E in C. discriminate.
  - intros [] s1 K. otail c.
Qed.
Lemma sm_activate : forall c a d p u pr kr kw cap s, SB s -> sm (activate c a d p u pr kr kw cap) s.
Proof.
  intros c a d p u pr kr kw cap s H. unfold activate. apply wp_bind, wp_stat. cbv zeta. apply wp_bind, wp_get, wp_bind.
  apply wp_when; intros _; [apply wp_raise; auto|]. apply wp_bind.
  apply (wp_conseq _ _ (fun _ s1 => still s s1) _ (fun _ s' => SB s') _); [|intros [] s0 K0|auto].
  { apply wp_when; intros _; [|apply still_refl; auto]. apply wp_setc. apply s_comp; auto. }
  apply wp_bind. apply (wp_conseq _ _ (fun _ s1 => off1 c s s1) _ (fun _ s' => SB s') _); [|intros [] s1 K; otail c|auto].
  assert (T : forall s1, off1 c s0 s1 -> off1 c s s1).
  { intros s1 (A1 & A2 & A3 & A4). split; auto. pose proof (fun d => still_LS _ _ d K0) as E.
    split; [intros x I; apply E; auto|]. split; auto. intros x N S. destruct (A4 x N S) as (S1 & L1). split; [apply K0; auto|].
    intros L. apply L1, E, L. }
  apply wp_when; intros C.
  - apply wp_bind, w_remove_S; [apply K0|]. intros s1 K1. apply T in K1. apply wp_when; intros _; auto.
    apply off_seq with (c := c) (s := s); auto with ss.
  - apply negb_false_iff, steqb_iff in C. apply T, off1_refl; [apply K0|]. rewrite (still_LS _ _ c K0). apply notin_st; auto. congruence.
Qed.
Lemma sm_create : forall c a d p u sk cap s, pristine s c -> SB s -> sm (create c a d p u sk cap) s.
Proof.
  intros c a d p u sk cap s P H. unfold create.
  assert (K : off1 c s s).
  { apply off1_refl; auto. apply notin_st; auto. unfold pristine, pristineb in P. rewrite !andb_true_iff in P.
    destruct P as ((((((((P & _) & _) & _) & _) & _) & _) & _) & _). apply steqb_iff in P. congruence. }
  otail c.
Qed.
Lemma sm_interrupt : forall c s, SB s -> sm (interrupt c) s.
Proof.
  intros c s H. unfold interrupt. apply wp_bind, wp_stat. apply wp_if; intros C; [apply wp_raise; auto|].
  assert (K : off1 c s s).
  { apply off1_refl; auto. apply notin_st; auto. intros E. rewrite E in C. discriminate. }
  apply wp_if; intros C1.
  - apply wp_setc. apply steqb_iff in C1. eapply gone_done, gone_set; eauto. cbn. congruence.
  - otail c.
Qed.
Lemma sm_resume : forall c a p u s, EL s -> SB s -> sm (resume c a p u) s.
Proof.
  intros c a p u s L H. unfold resume. apply wp_bind, wp_stat. apply wp_if; intros C; [|apply wp_raise; auto].
  apply steqb_iff in C. assert (K : off1 c s s) by (apply off1_refl; auto; apply notin_st; auto; congruence).
  destruct (L c) as (_ & L1). specialize (L1 C).
  apply wp_bind, wp_setc, wp_bind, wp_get. apply wp_if; intros _.
  - apply wp_ret. eapply gone_done, gone_set; eauto. cbn. congruence.
  - apply wp_bind, wp_setc.
    apply (off1_set c (fun x => w_ilevel (c_ilevel x - 1)%Z x)) in K; auto.
    apply sm_gone with (c := c); [fc c; auto with ss|]. apply gone_set; auto. rewrite comps_same. cbn. congruence.
Qed.
Lemma sm_cancel : forall n c s, SB s -> sm (cancel n c) s.
Proof.
  intros n c s H. unfold cancel. apply wp_bind, wp_stat. apply wp_if; intros D; [apply wp_ret, still_moved, still_refl; auto|].
  apply wp_bind. apply (wp_conseq _ _ (fun _ s1 => off1 c s s1) _ (fun _ s' => SB s') _); [|intros [] s1 K; otail c|auto].
  apply w_cur_prep; auto. intros _. apply w_prep0; auto.
Qed.
Lemma sm_set_remaining : forall c v p u s, SB s -> sm (set_remaining c v p u) s.
Proof.
  intros c v p u s H. unfold set_remaining. apply wp_bind, wp_stat. apply wp_if; intros C.
  { apply wp_setc. apply still_moved, s_comp; auto. }
  apply wp_if; intros C1; [apply wp_raise; auto|]. apply wp_if; intros C2; [apply wp_raise; auto|].
  apply steqb_false_iff in C2. assert (G : gone c s s). { split; auto. apply off1_refl; auto. apply notin_st; auto. }
  apply sm_gone with (c := c); auto. fc c; auto with ss.
Qed.
Lemma sm_run : forall sp p u cap s, SB s -> sm (run sp p u cap) s.
Proof.
  intros sp p u cap s H. unfold run. assert (K : off1 main s s) by (apply off1_refl; auto; apply H).
  apply wp_bind, wp_put.
  assert (K1 : off1 main s (s_eoe false s)).
  { eapply off1_moved; eauto. apply still_moved, s_same; auto. }
  revert K1. generalize (s_eoe false s). intros s1 K1. ostep main.
  apply wp_bind, wp_setc. apply sm_gone with (c := main); [fc main; auto with ss|]. apply gone_set; [auto | discriminate].
Qed.
Lemma sm_terminate : forall n c s, SB s -> c_status (comps s c) = Current -> sm (terminate n c) s.
Proof.
  intros n c s H C. unfold terminate. pose proof (off1_cur _ _ H C) as K. otail c.
Qed.
(** the calls that may register c *)
Lemma off1_still : forall c s a b, still s a -> off1 c a b -> off1 c s b.
Proof.
  intros c s a b K (A1 & A2 & A3 & A4). split; auto. pose proof (fun d => still_LS _ _ d K) as E.
  split; [intros x I; apply E; auto|]. split; auto. intros x N S. destruct (A4 x N S) as (S1 & L1). split; [apply K; auto|].
  intros L. apply L1, E, L.
Qed.
Lemma w_reg_prep : forall c s (Q : unit -> env -> Prop), SB s -> (forall s', off1 c s s' -> Q tt s') ->
  wp (when (negb (steqb (c_status (comps s c)) Current)) (check_notdata c ;;; check_notmain c ;;; remove c ;;; check_fail c)) Q (fun _ s' => SB s') s.
Proof. intros c s Q H K. apply w_cur_prep; auto. intros _. apply w_prep2; auto. Qed.
(** c_trywait: if the waits are gone at the end, c has been scheduled *)
Lemma w_trywait_S : forall c s s1, off1 c s s1 -> c_waits (comps s1 c) <> [] ->
  wp (c_trywait c) (fun _ s' => off1 c s s' /\ (c_waits (comps s' c) = [] -> c_status (comps s' c) <> Standby)) (fun _ s' => SB s') s1.
Proof.
  intros c s s1 K N. unfold c_trywait. apply wp_bind, wp_stat, wp_if; intros C.
  { apply wp_ret. split; tauto. }
  apply wp_bind, wp_get, wp_if; intros C1; [|apply wp_ret; split; tauto].
  apply wp_bind, wp_get, wp_bind. eapply off_seq; [unfold leave_wait; fc c; auto with ss | exact K|]. intros [] s2 K2.
  ostep c. apply wp_bind. eapply off_seq; [auto with ss | eassumption|]. intros [] s3 K3.
  apply wp_bind, wp_setc. apply wp_conseq with (Q := fun _ s' => gone c s s') (X := fun _ s' => SB s'); auto.
  - eapply gone_seq; [| apply gone_set; [exact K3 | discriminate] |]; auto. fc c; auto with ss.
  - intros b s4 (G1 & G2). auto.
Qed.
Lemma sm_wait_tail : forall c s s1 t p u cap, off1 c s s1 ->
  wp (ws <- get (fun s => c_waits (comps s c)) ;;
      when (negb (nonnil ws)) (raise TypeErr) ;;;
      n <- get now ;;
      setc c (w_rem (xsubq t n)) ;;;
      c_trywait c ;;;
      ws' <- get (fun s => c_waits (comps s c)) ;;
      when (nonnil ws') (setc c (w_status Waiting) ;;; reschedule c t p u cap)) (fun _ s' => moved s s') (fun _ s' => SB s') s1.
Proof.
  intros c s s1 t p u cap K. apply wp_bind, wp_get, wp_bind, wp_when; intros C; [apply wp_raise, K|].
  apply negb_false_iff, nonnil_true in C. apply wp_bind, wp_get, wp_bind, wp_setc, wp_bind.
  eapply wp_conseq; [apply w_trywait_S with (s := s) | | ]; [| | |auto].
  - apply off1_set; auto.
  - rewrite comps_same. auto.
  - cbv beta. intros b s2 (K2 & K3). apply wp_bind, wp_get, wp_when; intros C2.
    + otail c.
    + apply nonnil_false in C2. eapply gone_done. split; eauto.
Qed.
Lemma sm_wait : forall c a al f p u cap s, SB s -> sm (wait c a al f p u cap) s.
Proof.
  intros c a al f p u cap s H. unfold wait. apply wp_bind, wp_setc, wp_bind, wp_stat, wp_bind.
  match goal with |- wp _ _ _ ?z => assert (K0 : still s z) by (apply s_comp; auto); set (s0 := z) in * end. clearbody s0.
  apply w_reg_prep; [apply K0|]. intros s1 K. apply (off1_still _ _ _ _ K0) in K. clear K0. ostep c. ostep c.
  apply wp_bind. eapply off_seq; [auto with ss | eassumption|]. intros t s2 K2.
  apply wp_bind. eapply off_seq; [unfold wait1; fc c; auto with ss | eassumption|]. intros [] s3 K3. apply sm_wait_tail; auto.
Qed.
Lemma sm_wait_for : forall c cd l f p u cap s, SB s -> sm (wait_for c cd l f p u cap) s.
Proof.
  intros c cd l f p u cap s H. unfold wait_for. apply wp_bind, wp_stat, wp_bind.
  apply w_reg_prep; [auto|]. intros s1 K. ostep c.
  apply wp_bind. eapply off_seq; [auto with ss | eassumption|]. intros t s2 K2. ostep c.
  apply wp_bind. eapply off_seq; [fc c; auto with ss | eassumption|]. intros [] s3 K3. apply sm_wait_tail; auto.
Qed.
Lemma sm_from_store : forall n c ks f key rp fl fp u cap s, SB s -> sm (from_store n c ks f key rp fl fp u cap) s.
Proof.
  intros n c ks f key rp fl fp u cap s H. unfold from_store. apply wp_bind, wp_when; intros C; [apply wp_raise; auto|].
  apply wp_bind, wp_stat, wp_bind. apply w_reg_prep; [auto|]. intros s1 K. otail c.
Qed.
Lemma to_try_S : forall n c i p ks s s1, off1 c s s1 ->
  wp (to_try n c i p ks) (fun b s' => off1 c s s' /\ (b = true -> c_status (comps s' c) <> Standby)) (fun _ s' => SB s') s1.
Proof.
  intros n c i p. induction ks as [|k t IH]; intros s s1 K; cbn [to_try]; [apply wp_ret; split; auto; discriminate|].
  apply wp_bind, wp_get, wp_if; intros _; [|apply IH; auto].
  apply wp_bind. eapply off_seq; [auto with ss | exact K|]. intros [] s2 K2. ostep c. ostep c.
  apply wp_bind. eapply off_seq; [auto with ss | eassumption|]. intros [] s3 K3.
  apply wp_bind, wp_setc. apply wp_conseq with (Q := fun _ s' => gone c s s') (X := fun _ s' => SB s'); auto.
  - eapply gone_seq; [| apply gone_set; [exact K3 | discriminate] |]; auto. fc c; auto with ss.
  - intros b s4 (G1 & G2). auto.
Qed.
Lemma sm_to_store : forall n c ks i rp p fl fp u cap s, SB s -> sm (to_store n c ks i rp p fl fp u cap) s.
Proof.
  intros n c ks i rp p fl fp u cap s H. unfold to_store. apply wp_bind, wp_when; intros C; [apply wp_raise; auto|].
  apply wp_bind, wp_stat, wp_bind. apply w_reg_prep; [auto|]. intros s1 K.
  apply wp_bind. eapply off_seq; [auto with ss | exact K|]. intros t s2 K2. ostep c. apply wp_bind.
  eapply wp_conseq; [apply to_try_S; eassumption | | auto]. cbv beta. intros b s3 (K3 & K4). apply wp_if; intros Cb.
  - apply wp_ret. eapply gone_done. split; eauto.
  - otail c.
Qed.
Lemma moved_refl : forall s, SB s -> moved s s. Proof. intros. apply still_moved, still_refl; auto. Qed.
Lemma moved_seq : forall A (m : M A) s (Q : A -> env -> Prop) s1, frames R3 m -> moved s s1 -> (forall a s', moved s s' -> Q a s') -> wp m Q (fun _ s' => SB s') s1.
Proof.
  intros A m s Q s1 F K H. eapply wp_conseq; [apply (frames_wp _ _ _ s1 F) | |]; cbv beta; unfold R3; intros.
  - apply H. eapply moved_trans; eauto. apply still_moved, H0; apply K.
  - apply H0; apply K.
Qed.
Definition Rk (c : nat) (s s' : env) : Prop :=
  c_requests (comps s' c) = c_requests (comps s c) /\ c_status (comps s' c) = c_status (comps s c).
Lemma Rk_po : forall c, preorder (Rk c). Proof. constructor; unfold Rk; intuition congruence. Qed.
Lemma Rk_comp : forall c x f s, (x = c -> Rk c s (m_comp x f s)) -> Rk c s (m_comp x f s).
Proof. intros c x f s H. destruct (Nat.eq_dec x c); auto. unfold Rk. rewrite comps_diff by auto. auto. Qed.
Ltac fk c := let P := constr:(Rk_po c) in fgo P; try (solve [split; reflexivity | unfold Rk; rewrite comps_same; split; reflexivity
  | apply Rk_comp; intros ->; unfold Rk; rewrite comps_same; split; reflexivity | apply Rk_comp; congruence]).
Lemma k_q_enter : forall c q x p, frames (Rk c) (q_enter q x p). Proof. intros. unfold q_enter. fk c. Qed.
Lemma k_q_leave : forall c q x, frames (Rk c) (q_leave q x). Proof. intros. unfold q_leave. fk c. Qed.
Lemma k_release1 : forall n c x r q, frames (Rk c) (release1 n x r q true).
Proof. intros. unfold release1. cbn [negb when]. fk c; auto using k_q_leave. Qed.
Lemma k_activate : forall c x a d p u pr kr kw cap, x <> c -> frames (Rk c) (activate x a d p u pr kr kw cap).
Proof. intros. unfold activate, reschedule, push, remove, check_fail, leave_req. fk c; auto using k_q_leave. Qed.
Definition J (c : nat) (s s' : env) : Prop := off1 c s s' /\ (c_requests (comps s' c) = [] -> c_status (comps s' c) <> Standby).
Lemma aset_nonnil : forall A k (v : A) l, aset k v l <> [].
Proof. intros A k v [|[x y] t]; cbn; [|destruct (Nat.eqb _ _)]; discriminate. Qed.
Lemma w_activate_gone : forall c a d p u pr kr kw cap s, 
  wp (activate c a d p u pr kr kw cap) (fun _ s' => c_status (comps s' c) <> Standby) (fun _ _ => True) s.
Proof.
  intros. unfold activate. apply wp_bind, wp_stat. cbv zeta. apply wp_bind, wp_get, wp_bind.
  apply wp_when; intros _; [apply wp_raise; auto|]. apply wp_bind. apply wp_conseq with (Q := fun _ _ => True) (X := fun _ _ => True); auto.
  { apply wp_of_fst with (I := fun _ => True); auto. }
  intros _ s1 _. apply wp_bind. apply wp_conseq with (Q := fun _ _ => True) (X := fun _ _ => True); auto.
  { apply wp_of_fst with (I := fun _ => True); auto. }
  intros _ s2 _. apply wp_bind, wp_get, wp_bind, wp_setc.
  eapply wp_conseq; [apply (frames_wp _ (Rk c)) | |]; cbv beta; auto.
  - unfold reschedule, push. fk c.
  - intros _ s3 (_ & E). rewrite E, comps_same. discriminate.
Qed.
Lemma sm_request1 : forall n c m a s s1, off1 c s s1 -> wp (request1 n c m a) (fun _ s' => J c s s') (fun _ s' => SB s') s1.
Proof.
  intros n c m [[r q] p] s s1 K. unfold request1. apply wp_bind, wp_get.
  apply wp_bind, wp_when; intros _; [apply wp_raise, K|]. apply wp_bind, wp_when; intros _; [apply wp_raise, K|].
  apply wp_bind, wp_setc, wp_bind.
  match goal with |- wp _ _ _ ?z => assert (K0 : off1 c s z) by (apply off1_set; auto); assert (N0 : c_requests (comps z c) <> []);
    [rewrite comps_same; apply aset_nonnil | set (s0 := z) in *; clearbody s0] end.
  apply wp_conseq with (Q := fun _ s' => J c s s') (X := fun _ s' => SB s'); auto.
  { eapply wp_conseq; [apply wp_and; [apply off_seq with (c := c) (s := s) (Q := fun _ s' => off1 c s s'); auto with ss | 
      apply (frames_wp _ (Rk c) _ s0); apply k_q_enter] | |]; cbv beta; [|tauto].
    intros _ s2 (A & B & D). split; auto. intros E. rewrite B in E. tauto. }
  intros _ s2 K2.
  apply wp_when; intros _; auto. apply wp_bind, wp_get, wp_bind, wp_get. destruct (bump_candidates _ _ _ _) as [cs av'].
  apply wp_when; intros _; auto.
  apply wp_mfor_inv; auto. intros c' s3 _ (K3 & K3'). apply wp_bind.
  eapply wp_conseq; [apply wp_and; [apply moved_seq with (s := s3) (Q := fun _ s' => moved s3 s'); auto with ss; apply moved_refl, K3 |
     apply (frames_wp _ (Rk c) _ s3); apply k_release1] | |]; cbv beta; [|tauto].
  intros [] s4 (K4 & K4' & K4''). apply wp_bind, wp_get. destruct (yl s4 && (c' =? cur s4)%nat); [apply wp_raise, K4|].
  assert (J4 : J c s s4). { split; [eapply off1_moved; eauto|]. rewrite K4', K4''. auto. }
  destruct (Nat.eq_dec c' c) as [->|N].
  - eapply wp_conseq; [apply wp_and; [apply sm_activate, K4 | apply w_activate_gone] | |]; cbv beta; [|tauto].
    intros _ s5 (A & B). split; auto. apply off1_moved with (a := s4); auto. apply J4.
  - eapply wp_conseq; [apply wp_and; [apply sm_activate, K4 | apply (frames_wp _ (Rk c) _ s4); apply k_activate; auto] | |]; cbv beta; [|tauto].
    intros _ s5 (A & B & D). split; [apply off1_moved with (a := s4); auto; apply J4|]. rewrite B, D. apply J4.
Qed.
Lemma w_c_try_S : forall rt c s s1, (forall r, frames R3 (rt r)) -> off1 c s s1 ->
  wp (c_try rt c) (fun _ s' => s' = s1 \/ gone c s s') (fun _ s' => SB s') s1.
Proof.
  intros rt c s s1 HR K. unfold c_try. apply wp_bind, wp_stat, wp_if; intros C; [apply wp_ret; auto|].
  apply wp_bind, wp_get, wp_bind.
  assert (F : frames (fun s s' => s' = s) (if c_oneof (comps s1 c) then honor_any c else honor_all c)).
  { assert (P : preorder (fun s s' : env => s' = s)) by (constructor; congruence).
    apply fr_if; [apply (g_honor_any _ P) | apply (g_honor_all _ P)]. }
  eapply wp_conseq; [apply (frames_wp _ _ _ s1 F) | cbv beta | cbv beta; intros e s' ->; apply K].
  intros rh s2 ->. destruct rh as [|r0 rh0]; [apply wp_ret; auto|]. apply wp_bind, wp_get, wp_bind, wp_get, wp_bind.
  eapply off_seq; [unfold claim; fc c; auto with ss | exact K|]. intros [] s2 K2. ostep c.
  apply wp_bind. eapply off_seq; [auto with ss | eassumption|]. intros [] s3 K3.
  apply wp_bind, wp_setc. apply wp_conseq with (Q := fun _ s' => gone c s s') (X := fun _ s' => SB s'); auto.
  eapply gone_seq; [| apply gone_set; [exact K3 | discriminate] |]; auto. fc c; auto with ss.
Qed.
Lemma sm_request : forall n c args o f p u cap s, SB s -> args <> [] -> sm (request n c args o f p u cap) s.
Proof.
  intros n c args o f p u cap s H NA. unfold request. apply wp_bind, wp_setc, wp_bind, wp_stat, wp_bind.
  match goal with |- wp _ _ _ ?z => assert (K0 : still s z) by (apply s_comp; auto); set (s0 := z) in * end. clearbody s0.
  apply w_reg_prep; [apply K0|]. intros s1 K. apply (off1_still _ _ _ _ K0) in K. clear K0.
  apply wp_bind. eapply off_seq; [auto with ss | eassumption|]. intros t s2 K2. ostep c.
  destruct args as [|a0 args']; [tauto|]. set (args := a0 :: args'). apply wp_bind.
  apply wp_conseq with (Q := fun _ s' => J c s s') (X := fun _ s' => SB s'); auto.
  { unfold args at 2. cbn [mfor]. apply wp_bind. eapply wp_conseq; [eapply sm_request1; eassumption | cbv beta | auto].
    intros [] s3 K3. apply wp_mfor_inv; auto. intros x s4 _ K4. apply sm_request1, K4. }
  intros [] s3 K3. apply wp_bind, wp_get, wp_bind.
  eapply wp_conseq; [apply wp_and; [apply off_seq with (c := c) (s := s) (Q := fun _ s' => off1 c s s'); [fc c | apply K3 | auto] | 
    apply (frames_wp _ (Rk c) _ s3)] | |]; cbv beta; [fk c | | tauto].
  intros _ s4 (K4 & A & B). apply wp_bind, wp_get, wp_bind, wp_setc, wp_bind.
  match goal with |- wp _ _ _ ?z => assert (K5 : J c s z);
    [split; [apply off1_set; auto | rewrite comps_same; cbn; rewrite A, B; apply K3] | set (s5 := z) in *; clearbody s5] end.
  eapply wp_conseq; [apply w_c_try_S with (s := s); [auto with ss | apply K5] | cbv beta | auto].
  intros b s6 D. apply wp_bind, wp_get, wp_when; intros E.
  - assert (K6 : off1 c s s6). { destruct D as [->|D]; [apply K5 | apply D]. } otail c.
  - apply nonnil_false in E. destruct D as [->|D]; [|eapply gone_done; eauto].
    eapply gone_done with (c := c). split; apply K5; auto.
Qed.

(** ** standby and step *)
Lemma SB_standby : forall c s, SB s -> c <> main ->
  wp (standby c) (fun _ s' => QI s' -> SB s' /\ In c (stby s') /\ (forall d, LS s' d -> LS s d \/ d = c) /\
      forall d, d <> c -> c_status (comps s' d) = Standby -> c_status (comps s d) = Standby /\ (LS s d -> LS s' d))
    (fun _ s' => SB s') s.
Proof.
  intros c s H N. unfold standby. apply wp_bind, wp_stat, wp_bind. apply w_reg_prep; auto. intros s1 K.
  apply wp_bind, wp_get, wp_bind, wp_setc, wp_bind, wp_put, wp_setc. intros Q.
  match goal with |- SB ?z /\ _ => set (s2 := z) in * end.
  assert (C2 : forall d, d <> c -> c_status (comps s2 d) = c_status (comps s1 d) /\ c_onev (comps s2 d) = c_onev (comps s1 d)).
  { intros d ND. unfold s2. rewrite comps_diff by auto. cbn [s_stby comps]. rewrite comps_diff by auto. auto. }
  assert (B1 : stby s2 = stby s1 ++ [c]) by reflexivity. assert (B2 : pend s2 = pend s1) by reflexivity.
  assert (ST : c_status (comps s2 c) = Standby) by (unfold s2; rewrite comps_same; auto).
  assert (OFF : c_onev (comps s2 c) = false).
  { destruct (c_onev (comps s2 c)) eqn:E; auto. apply (ei_stat _ (ki_e _ (qi_k _ Q))) in E. rewrite ST in E.
    destruct E as [E|[E|E]]; discriminate. }
  assert (NQ2 : NQ c s2).
  { apply QI_NQ; auto; [apply (ki_l _ (qi_k _ Q) c) | apply (qi_r _ Q c)]; rewrite ST; right; right; right; auto. }
  assert (L2 : forall d, LS s2 d <-> LS s1 d \/ d = c).
  { intros d. unfold LS. rewrite B1, B2, !in_app_iff. cbn [In].
    assert (X : c = d <-> d = c) by (split; congruence). rewrite X. tauto. }
  destruct K as (A1 & A2 & A3 & A4). split; [constructor|split; [|split]].
  - rewrite B1, B2, <- app_assoc. cbn [app]. apply NoDup_Add with (a := c) (l := stby s1 ++ pend s1).
    + apply Add_app.
    + split; [apply A1 | exact A3].
  - intros d L. destruct (Nat.eq_dec d c) as [->|ND]; auto. apply L2 in L. destruct L as [L|L]; [|tauto].
    destruct (C2 d ND) as (-> & ->). apply (sb_st _ A1); auto.
  - intros q d Q' M L. apply L2 in L. destruct L as [L| ->]; [|apply (NQ2 q); auto].
    apply (sb_q _ A1 q d Q'); auto.
  - intros L. apply L2 in L. destruct L as [L|L]; [apply (sb_m _ A1); auto | auto].
  - rewrite B1, in_app_iff. right; left; auto.
  - intros d L. apply L2 in L. destruct L; auto.
  - intros d ND S. destruct (C2 d ND) as (E & _). rewrite E in S. destruct (A4 d ND S) as (S1 & L1). split; auto.
    intros L. apply L2. auto.
Qed.
Lemma SB_lists : forall s s', SB s -> comps s' = comps s -> qs s' = qs s -> NoDup (stby s' ++ pend s') ->
  (forall d, LS s' d -> LS s d) -> SB s'.
Proof.
  intros s s' [A B C D] E1 E2 N L. constructor; auto.
  - rewrite E1. auto.
  - intros q c Q M K. unfold mem in M. rewrite E2 in M. apply (C q c Q M). auto.
Qed.
Lemma shuffle_lists : forall s, SB s -> SB (shuffle s) /\ (forall d, LS (shuffle s) d -> LS s d) /\
  (stby s = [] \/ pend s = [] -> forall d, LS s d -> LS (shuffle s) d).
Proof.
  intros s H. unfold shuffle. destruct (nonnil (stby s)) eqn:E; [|auto].
  assert (L : forall d, LS (s_stby [] (s_pend (stby s) s)) d -> LS s d).
  { intros d. unfold LS. cbn. rewrite in_app_iff. auto. }
  split; [|split; auto].
  - apply SB_lists with (s := s); auto. cbn. apply (NoDup_app_inv _ _ (sb_nd _ H)).
  - intros [F|F] d; [rewrite F in E; discriminate|]. unfold LS. cbn. rewrite F, app_nil_r. auto.
Qed.
Lemma SB_step : forall n s, EI s -> SB s ->
  wp (step n) (fun _ s' => SB s' /\ (c_skip (comps s (cur s)) = false \/ stby s = [] \/ pend s = [] -> moved s s')) (fun _ s' => SB s') s.
Proof.
  intros n s E H.
  assert (T : forall c s1 m, ~ LS s1 c -> SB s1 -> (forall d, LS s1 d -> LS s d) -> frames (Rc c) m ->
     (forall d, c_status (comps s1 d) = Standby -> c_status (comps s d) = Standby) ->
     (c_skip (comps s (cur s)) = false \/ stby s = [] \/ pend s = [] -> moved s s1) ->
     wp m (fun (_ : unit) s' => SB s' /\ (c_skip (comps s (cur s)) = false \/ stby s = [] \/ pend s = [] -> moved s s')) (fun _ s' => SB s') s1).
  { intros c s1 m N H1 L F ST M. eapply wp_conseq; [apply (frames_wp _ _ _ s1 F) | |]; cbv beta; unfold Rc.
    - intros _ s' K. specialize (K H1 N). split; [apply K|]. intros P. eapply moved_trans; [apply M; auto | apply still_moved; auto].
    - intros e s' K. specialize (K H1 N). apply K. }
  apply w_step.
  - intros c t SK PD ST.
    assert (Z : SB (s_pend t s) /\ (forall d, LS (s_pend t s) d -> LS s d) /\ ~ LS (s_pend t s) c /\ forall d, d <> c -> LS s d -> LS (s_pend t s) d).
    { pose proof (sb_nd _ H) as ND. rewrite PD in ND. assert (L : forall d, LS (s_pend t s) d -> LS s d).
      { intros d. unfold LS. cbn. rewrite PD, !in_app_iff. cbn. tauto. }
      apply NoDup_remove in ND. destruct ND as (ND & NI). split; [apply SB_lists with (s := s); auto|]. split; auto. split; [exact NI|].
      intros d X. unfold LS. cbn. rewrite PD, !in_app_iff. cbn. intuition congruence. }
    destruct Z as (Z1 & Z2 & Z3 & Z4).
    assert (G : gone c s (s_cur c (m_comp c (w_sched PInf) (m_comp c (w_status Current) (s_pend t s))))).
    { assert (O : off1 c s (s_pend t s)). { refine (conj Z1 (conj Z2 (conj Z3 _))). intros d N S. split; [exact S | apply Z4; auto]. }
      apply (off1_set c (w_status Current)) in O; [|left; discriminate]. 
      apply (gone_set c (w_sched PInf)) in O; [|rewrite comps_same; discriminate].
      eapply gone_moved; [exact O|]. apply still_moved, s_same; auto. apply O. }
    split.
    + intros ->. apply G.
    + intros NM. apply T with (c := c); try apply G; [apply R3_Rc, s_continue | |].
      * intros d S. apply (gone_done _ _ _ G) in S. tauto.
      * intros _. apply gone_done with (c := c). auto.
  - intros D0.
    assert (DR : dropped s = s /\ (c_skip (comps s (cur s)) = false \/ stby s = [] \/ pend s = [] -> stby s = [] \/ pend s = [])).
    { unfold dropped. destruct (c_skip (comps s (cur s))) eqn:SK; [split; auto; intuition congruence|].
      destruct D0 as [D0|[D0|(c & t & D0 & ST)]]; [discriminate | rewrite D0; split; auto |].
      exfalso. apply ST. apply (sb_st _ H). unfold LS. rewrite D0, in_app_iff. right; left; auto. }
    destruct DR as (-> & DR). destruct (shuffle_lists s H) as (H1 & L1 & L2).
    assert (CM : comps (shuffle s) = comps s) by (unfold shuffle; destruct (nonnil (stby s)); auto).
    assert (KD : forall c x, ~ LS (shuffle s) c -> still (shuffle s) x -> SB (disp c x) /\ gone c (shuffle s) (disp c x)).
    { intros c x N K. assert (O : off1 c (shuffle s) (s_cur c x)).
      { eapply off1_moved; [apply off1_refl; [exact H1 | exact N]|]. eapply moved_trans; [apply still_moved; exact K|]. apply still_moved, s_same; auto. apply K. }
      unfold disp. apply (off1_set c (w_status Current)) in O; [|left; discriminate]. 
      apply (gone_set c (w_sched PInf)) in O; [|rewrite comps_same; discriminate]. split; [apply O | exact O]. }
    assert (FIN : forall c x, gone c (shuffle s) x -> (c_skip (comps s (cur s)) = false \/ stby s = [] \/ pend s = [] -> moved s x)).
    { intros c x G P. eapply moved_trans; [|eapply gone_done; exact G]. split; auto. split; auto. intros d. rewrite CM. auto. }
    split.
    + intros e l' EP. cbv zeta. pose proof (ev_pop_min _ _ _ EP) as (I & _).
      assert (O : c_onev (comps s (e_c e)) = true) by (apply (ei_onev _ E); apply in_map; auto).
      assert (N : ~ LS (shuffle s) (e_c e)). { intros L. apply L1, (sb_st _ H) in L. destruct L. congruence. }
      destruct (KD (e_c e) (taken e l' (shuffle s))) as (K1 & K2); auto.
      { assert (S1 : still (shuffle s) (s_evl l' (shuffle s))) by (apply s_same; auto).
        assert (S2 : still (shuffle s) (m_comp (e_c e) (w_onev false) (s_evl l' (shuffle s)))).
        { eapply still_trans; [exact S1|]. apply s_set; [auto | apply S1 |]. rewrite (still_LS _ _ _ S1). auto. }
        eapply still_trans; [exact S2|]. apply s_same; auto. apply S2. }
      split.
      * intros _. assert (K3 : gone (e_c e) (shuffle s) (s_running false (disp (e_c e) (taken e l' (shuffle s))))).
        { eapply gone_moved; [exact K2|]. apply still_moved, s_same; auto. }
        split; [apply K3|]. apply FIN with (c := e_c e); auto.
      * intros NM. apply T with (c := e_c e).
        -- apply K2.
        -- exact K1.
        -- destruct K2 as ((_ & K & _) & _). auto.
        -- apply R3_Rc, (fr_bind _ R3_po); [apply s_check_fail | intros; apply s_continue].
        -- intros d S. apply (gone_done _ _ _ K2) in S. rewrite CM in S. tauto.
        -- apply FIN with (c := e_c e); auto.
    + intros _. assert (N : ~ LS (shuffle s) main) by (apply H1).
      destruct (KD main (emptied (shuffle s))) as (K1 & K2); auto.
      { unfold emptied. destruct (eoe (shuffle s)).
        - apply s_set; auto.
        - eapply still_trans; [apply s_set with (c := main) (f := w_onev false); auto | apply s_same; auto]. apply s_set; auto. }
      assert (K3 : gone main (shuffle s) (s_running false (disp main (emptied (shuffle s))))).
      { eapply gone_moved; [exact K2|]. apply still_moved, s_same; auto. }
      split; [apply K3|]. apply FIN with (c := main); auto.
Qed.
(** ** All operations *)
Definition skips (s : env) : Prop := c_skip (comps s (cur s)) = true /\ stby s <> [] /\ pend s <> [].
Lemma SB_exec : forall n o s, QI s -> SB s -> wf s o ->
  wp (exec n o) (fun _ s' => QI s' -> SB s' /\ ((o = OStep -> ~ skips s) ->
      (forall d, c_status (comps s d) = Standby -> LS s d) -> forall d, c_status (comps s' d) = Standby -> LS s' d))
    (fun _ s' => SB s') s.
Proof.
  intros n o s Q H W.
  assert (A : forall m : M unit, sm m s -> wp m (fun _ s' => QI s' -> SB s' /\ ((o = OStep -> ~ skips s) ->
      (forall d, c_status (comps s d) = Standby -> LS s d) -> forall d, c_status (comps s' d) = Standby -> LS s' d))
    (fun _ s' => SB s') s).
  { intros m K. eapply wp_conseq; [exact K | cbv beta | auto]. intros _ s' (A & B & C) _. split; auto. intros _ D d S. apply C; auto. apply D, C, S. }
  assert (B : forall m : M unit, frames R3 m -> sm m s).
  { intros m F. eapply moved_seq; [exact F | apply moved_refl; auto | auto]. }
  destruct W as (_ & W). destruct o; cbn [exec];
    try (apply A; solve [ apply sm_create; [tauto | auto] | apply sm_activate; auto | apply sm_hold; auto | apply sm_passivate; auto
      | apply sm_interrupt; auto | apply sm_resume; [apply Q | auto] | apply sm_cancel; auto | apply sm_set_remaining; auto
      | apply sm_request; [auto | tauto] | apply sm_wait; auto | apply sm_wait_for; auto | apply sm_from_store; auto
      | apply sm_to_store; auto | apply sm_run; auto
      | apply B; unfold reset_now; solve [auto using s_res_release, s_set_cap, s_st_set, s_st_trigger, s_st_set_cap, s_rescan, s_set_filter with ss | f3] ]).
  - eapply wp_conseq; [apply SB_standby; auto | cbv beta | auto]. intros _ s' K QI'. specialize (K QI').
    destruct K as (K1 & K2 & K3 & K4). split; auto. intros _ D d S. destruct (Nat.eq_dec d c) as [->|N].
    + unfold LS. apply in_app_iff. auto.
    + apply K4; auto. apply D, K4; auto.
  - eapply wp_conseq; [apply SB_step; auto; apply Q | cbv beta | auto]. intros _ s' (K1 & K2) _. split; auto. intros NS D d S.
    assert (M : moved s s').
    { apply K2. destruct (c_skip (comps s (cur s))) eqn:SK; auto. right. destruct (stby s) as [|a l] eqn:E1; auto.
      destruct (pend s) as [|b l2] eqn:E2; auto. exfalso. apply NS; auto. unfold skips. rewrite SK, E1, E2. repeat split; congruence. }
    apply M; auto. apply D, M, S.
  - apply A. apply wp_bind, wp_get. apply sm_terminate; tauto.
Qed.
Lemma SB_init : forall t0 R sv kc hp y d, SB (init t0 R sv kc hp y d).
Proof. intros. constructor; cbn; try constructor; unfold LS; cbn; tauto. Qed.
Record PI (s : env) : Prop := { pi_q : QI s; pi_s : SB s }.
Lemma PI_exec : forall n o s s' r, PI s -> wf s o -> exec n o s = (s', r) -> (forall e, r = Er e -> caught o e /\ calm o) -> PI s'.
Proof.
  intros n o s s' r [Q S] W E C. pose proof (QI_exec n o s s' r Q W E C) as Q'. constructor; auto.
  pose proof (SB_exec n o s Q S W) as P. unfold wp in P. rewrite E in P. destruct r; [apply P; auto | auto].
Qed.
Lemma runs_t_PI : forall s s', runs_t s s' -> PI s -> PI s'.
Proof. induction 1 as [|s s1 o s2 n r H IH W E C]; intros; auto. exact (PI_exec n o s1 s2 r (IH H0) W E C). Qed.
Lemma reach_t_PI : forall s, reach_t s -> PI s.
Proof. intros s (t0 & R & sv & kc & hp & y & d & H). eapply runs_t_PI; eauto. constructor; [apply QI_init | apply SB_init]. Qed.
