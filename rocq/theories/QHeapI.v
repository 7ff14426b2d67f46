(** Iterating over a queue of QHeap while it changes, and the statistics that are kept. *)
From Coq Require Import QArith Lqa List Bool Arith ZArith Lia.
From Verif Require Import Base QHeap QSpec QHeapP QHeapR.
Import ListNotations.
Open Scope Q_scope.
Open Scope h_scope.

(** the part of a queue that iterating changes *)
Definition q_it (l : list (nat * bool)) (s : nat) (v : qu) : qu :=
  mkQu (u_head v) (u_tail v) (u_len v) (u_cap v) (u_av v) l s (u_arr v) (u_dep v) (u_llog v) (u_slog v).
Record quiet (h h' : heap) : Prop := {
  qt_mm : mm h' = mm h; qt_nm : nm h' = nm h; qt_nq : nq h' = nq h; qt_mb : mb h' = mb h; qt_ck : ck h' = ck h;
  qt_q : forall q, qq h' q = q_it (u_touch (qq h' q)) (u_seq (qq h' q)) (qq h q) }.
Lemma quiet_refl : forall h, quiet h h.
Proof. intro h. constructor; auto. intro q. destruct (qq h q); reflexivity. Qed.
Lemma quiet_trans : forall h1 h2 h3, quiet h1 h2 -> quiet h2 h3 -> quiet h1 h3.
Proof.
  intros h1 h2 h3 [A B C D E F] [A' B' C' D' E' F']. constructor; try congruence. intro q. rewrite F'. cbn. rewrite (F q). reflexivity.
Qed.
Lemma quiet_fields : forall h h' q, quiet h h' -> u_head (qq h' q) = u_head (qq h q) /\ u_tail (qq h' q) = u_tail (qq h q) /\ u_len (qq h' q) = u_len (qq h q) /\ u_cap (qq h' q) = u_cap (qq h q) /\
  u_arr (qq h' q) = u_arr (qq h q) /\ u_dep (qq h' q) = u_dep (qq h q) /\ u_llog (qq h' q) = u_llog (qq h q) /\ u_slog (qq h' q) = u_slog (qq h q).
Proof. intros h h' q Q. rewrite (qt_q _ _ Q q). cbn. auto 10. Qed.
Lemma quiet_inv : forall h h' f, quiet h h' -> Inv h f -> Inv h' f.
Proof.
  intros h h' f Q I. pose proof (fun q => quiet_fields h h' q Q) as F. destruct Q. eapply inv_same; eauto. intro q. destruct (F q) as (A & B & C & _). auto.
Qed.
Lemma quiet_abs : forall h h' f, quiet h h' -> Inv h f -> same (abs h') (abs h).
Proof.
  intros h h' f Q I. pose proof (quiet_inv h h' f Q I) as I'. split; [cbn; apply Q|]. intros q L. cbn in L. split.
  - cbn. apply (quiet_fields h h' q Q).
  - rewrite (abs_l h' f q I' L). rewrite (abs_l h f q I); [|rewrite <- (qt_nq _ _ Q); auto]. apply ents_ext. intros m _. rewrite (qt_mm _ _ Q). auto.
Qed.

(** *** one call of next *)
(** seq has been told of changes since it last looked *)
Definition told (h : heap) (q seq : nat) : option bool := alookup seq (u_touch (qq h q)).
Definition alive (h : heap) (m : nat) : bool := match m_comp (mm h m) with Some _ => true | None => false end.
(** the members of q outside l, in the order of q *)
Definition unseen (f : nat -> list nat) (q : nat) (l : list nat) : list nat := filter (fun m => negb (memb m l)) (f q).
Record it_ok (h : heap) (f : nat -> list nat) (q seq : nat) (l : list nat) (ix : nat) : Prop := {
  io_q : (q < nq h)%nat; io_seq : (seq <= u_seq (qq h q))%nat; io_told : exists t, told h q seq = Some t;
  io_nd : NoDup l; io_lt : forall m, In m l -> (m < nm h)%nat /\ m_q (mm h m) = q; io_ix : (ix <= length l)%nat;
  io_all : told h q seq = Some false -> filter (alive h) (skipn ix l) = unseen f q (firstn ix l) }.

Lemma touch_quiet : forall h q g, quiet h (set_q q (fun v => w_touch (g v) v) h).
Proof.
  intros h q g. constructor; auto. intro q'. cbn. unfold upd. destruct (Nat.eqb_spec q' q) as [->|N].
  - cbn. reflexivity.
  - destruct (qq h q'); reflexivity.
Qed.
Lemma it_quiet : forall h i x, quiet h (set_it i x h).
Proof. intros h i x. constructor; auto. intro q. cbn. destruct (qq h q); reflexivity. Qed.

Lemma loop_step : forall fuel i q seq l ix h, told h q seq = Some false -> iter_loop (S fuel) i q seq l ix h =
  if (ix <? length l)%nat then
    match m_comp (mm h (nth ix l 0%nat)) with
    | Some c => (set_it i (ItRun q seq l (S ix)) h, Rok (Some c))
    | None => iter_loop fuel i q seq l (S ix) h
    end
  else (set_it i ItDone (set_q q (fun v => w_touch (adel seq (u_touch v)) v) h), Rok None).
Proof.
  intros fuel i q seq l ix h T. unfold told in T. cbn [iter_loop]. unfold hbind, rd. rewrite T. rewrite orb_false_r. destruct (ix <? length l)%nat; [|reflexivity].
  destruct (m_comp (mm h (nth ix l 0%nat))); reflexivity.
Qed.
(** asking when nothing changed: the next one that is still there *)
Lemma loop_plain : forall fuel i q seq l ix h, told h q seq = Some false -> (ix <= length l)%nat -> (length l - ix < fuel)%nat ->
  (exists k c, (ix <= k < length l)%nat /\ (forall j, (ix <= j < k)%nat -> m_comp (mm h (nth j l 0%nat)) = None) /\ m_comp (mm h (nth k l 0%nat)) = Some c /\
     iter_loop fuel i q seq l ix h = (set_it i (ItRun q seq l (S k)) h, Rok (Some c))) \/
  ((forall j, (ix <= j < length l)%nat -> m_comp (mm h (nth j l 0%nat)) = None) /\
     iter_loop fuel i q seq l ix h = (set_it i ItDone (set_q q (fun v => w_touch (adel seq (u_touch v)) v) h), Rok None)).
Proof.
  induction fuel as [|fuel IH]; intros i q seq l ix h T Lx F; [lia|]. rewrite loop_step by auto.
  destruct (Nat.ltb_spec ix (length l)) as [Lt|Ge].
  - destruct (m_comp (mm h (nth ix l 0%nat))) as [c|] eqn:C.
    + left. exists ix, c. split; [lia|]. split; [intros j J; lia|]. split; auto.
    + destruct (IH i q seq l (S ix) h T) as [(k & c & A & B & D & E)|(B & E)]; [lia|lia| |].
      * left. exists k, c. split; [lia|]. split; [|split; auto]. intros j J. destruct (Nat.eq_dec j ix) as [->|N]; auto. apply B. lia.
      * right. split; auto. intros j J. destruct (Nat.eq_dec j ix) as [->|N]; auto. apply B. lia.
  - right. split; [intros j J; lia|]. reflexivity.
Qed.

Lemma add_new_spec : forall ms l, NoDup l -> NoDup ms -> add_new l ms = l ++ filter (fun m => negb (memb m l)) ms.
Proof.
  unfold add_new. induction ms as [|m ms IH]; intros l NL NM; cbn [fold_left filter]; [now rewrite app_nil_r|].
  inversion NM; subst. destruct (memb m l) eqn:M; cbn [negb].
  - apply IH; auto.
  - rewrite IH; auto.
    + rewrite <- app_assoc. cbn. f_equal. f_equal. apply filter_ext_in. intros x X. f_equal. unfold memb. rewrite existsb_app. cbn. destruct (Nat.eqb_spec x m) as [->|N]; [tauto|]. now rewrite !orb_false_r.
    + apply nodup_app. split; auto. split; [constructor; [cbn; tauto|constructor]|]. intros z Z [<-|[]]. apply memb_false_iff in M. auto.
Qed.

(** the list looked at by a call of next: the rest is replaced by the newcomers if there were changes *)
Definition looked (h : heap) (f : nat -> list nat) (q seq : nat) (l : list nat) (ix : nat) : list nat :=
  match told h q seq with
  | Some true => firstn ix l ++ unseen f q (firstn ix l)
  | _ => l
  end.
Lemma filter_all : forall (A : Type) (g : A -> bool) l, (forall x, In x l -> g x = true) -> filter g l = l.
Proof. intros A g l. induction l as [|x l IH]; intro F; cbn; auto. rewrite F by (left; auto). rewrite IH; auto. intros y Y. apply F. right. auto. Qed.
Lemma filter_none : forall (A : Type) (g : A -> bool) l, (forall x, In x l -> g x = false) -> filter g l = [].
Proof. intros A g l. induction l as [|x l IH]; intro F; cbn; auto. rewrite F by (left; auto). apply IH. intros y Y. apply F. right. auto. Qed.
Lemma alive_in : forall h f q m, Inv h f -> In m (f q) -> alive h m = true.
Proof. intros h f q m I M. destruct (iv_comp _ _ I q m (iv_q_lt _ _ _ _ I M) M) as [c C]. unfold alive. now rewrite C. Qed.
Lemma in_first : forall (A : Type) (m : A) ix l, In m (firstn ix l) -> In m l.
Proof. intros A m ix l M. rewrite <- (firstn_skipn ix l). apply in_or_app. auto. Qed.
Lemma in_skip : forall (A : Type) (m : A) ix l, In m (skipn ix l) -> In m l.
Proof. intros A m ix l M. rewrite <- (firstn_skipn ix l). apply in_or_app. auto. Qed.
Lemma looked_ok : forall h f q seq l ix, Inv h f -> it_ok h f q seq l ix -> let l' := looked h f q seq l ix in
  NoDup l' /\ (forall m, In m l' -> (m < nm h)%nat /\ m_q (mm h m) = q) /\ (ix <= length l')%nat /\ filter (alive h) (skipn ix l') = unseen f q (firstn ix l) /\ firstn ix l' = firstn ix l.
Proof.
  intros h f q seq l ix I O. destruct O. destruct io_told0 as [t T]. unfold looked. rewrite T in *. cbv zeta. destruct t.
  - assert (LF : length (firstn ix l) = ix) by (rewrite firstn_length; lia).
    split; [|split; [|split; [|split]]].
    + apply nodup_app. split; [|split].
      * rewrite <- (firstn_skipn ix l) in io_nd0. apply nodup_app in io_nd0. tauto.
      * apply nodup_filter. apply (iv_nodup h f q I).
      * intros z Z1 Z2. apply filter_In in Z2. destruct Z2 as [_ Z2]. apply memb_iff in Z1. rewrite Z1 in Z2. discriminate.
    + intros m M. apply in_app_or in M. destruct M as [M|M]; [apply io_lt0; eapply in_first; eauto|]. apply filter_In in M. apply (iv_in_lt _ _ _ _ I io_q0). tauto.
    + rewrite app_length, LF. lia.
    + rewrite skipn_app, LF, Nat.sub_diag. rewrite skipn_all2 by lia. cbn [app skipn]. apply filter_all. intros m M. apply filter_In in M. eapply alive_in; eauto. apply M.
    + rewrite firstn_app, LF, Nat.sub_diag. cbn [firstn]. rewrite app_nil_r. rewrite firstn_firstn, Nat.min_id. reflexivity.
  - split; [auto|split; [auto|split; [auto|split; [auto|reflexivity]]]].
Qed.
(** what is left of the flags *)
Record flags (h h' : heap) (q seq : nat) (b : option bool) : Prop := {
  fl_s : told h' q seq = b; fl_o : forall s, s <> seq -> told h' q s = told h q s; fl_q : forall q', q' <> q -> qq h' q' = qq h q'; fl_n : u_seq (qq h' q) = Nat.max seq (u_seq (qq h q));
  fl_k : (NoDup (keys (u_touch (qq h q))) -> NoDup (keys (u_touch (qq h' q)))) }.
(** the result of the loop, from the list l' *)
Definition outcome (h h' : heap) (i q seq : nat) (l' : list nat) (ix : nat) (r : option nat) : Prop :=
  match r with
  | Some c => exists k, (ix <= k < length l')%nat /\ (forall j, (ix <= j < k)%nat -> m_comp (mm h (nth j l' 0%nat)) = None) /\ m_comp (mm h (nth k l' 0%nat)) = Some c /\
                        its h' i = ItRun q seq l' (S k) /\ flags h h' q seq (Some false)
  | None => (forall j, (ix <= j < length l')%nat -> m_comp (mm h (nth j l' 0%nat)) = None) /\ its h' i = ItDone /\ flags h h' q seq None
  end.
(** setting a flag first changes nothing for the others *)
Lemma loop_out : forall fuel i q seq l ix h h1, quiet h h1 -> flags h h1 q seq (Some false) -> its h1 = its h -> ni h1 = ni h -> (ix <= length l)%nat -> (length l - ix < fuel)%nat ->
  exists h' r, iter_loop fuel i q seq l ix h1 = (h', Rok r) /\ quiet h h' /\ ni h' = ni h /\ (forall j, j <> i -> its h' j = its h j) /\ outcome h h' i q seq l ix r.
Proof.
  intros fuel i q seq l ix h h1 Q F IT NI Lx LF. pose proof (qt_mm _ _ Q) as MM.
  destruct (loop_plain fuel i q seq l ix h1 (fl_s _ _ _ _ _ F) Lx LF) as [(k & c & A & B & D & E)|(B & E)]; rewrite E.
  - eexists _, (Some c). split; [reflexivity|]. split; [eapply quiet_trans; [exact Q|apply it_quiet]|]. split; [exact NI|].
    split; [intros j N; cbn; rewrite upd_diff by auto; congruence|]. exists k. rewrite MM in *. split; auto. split; auto. split; auto. split; [cbn; apply upd_same|]. destruct F. constructor; auto.
  - eexists _, None. split; [reflexivity|]. split; [eapply quiet_trans; [exact Q|]; eapply quiet_trans; [apply touch_quiet|apply it_quiet]|]. split; [exact NI|].
    split; [intros j N; cbn; rewrite upd_diff by auto; congruence|]. rewrite MM in *. split; auto. split; [cbn; apply upd_same|].
    constructor.
    + unfold told. cbn [set_q set_it qq w_touch u_touch u_seq]. rewrite !upd_same. cbn [set_q set_it qq w_touch u_touch u_seq]. apply alookup_adel_same.
    + intros s N. unfold told. cbn [set_q set_it qq w_touch u_touch u_seq]. rewrite !upd_same. cbn [set_q set_it qq w_touch u_touch u_seq]. rewrite alookup_adel_diff by auto. apply (fl_o _ _ _ _ _ F s N).
    + intros q' N. cbn [set_q set_it qq w_touch u_touch u_seq]. rewrite upd_diff by auto. apply (fl_q _ _ _ _ _ F q' N).
    + cbn [set_q set_it qq w_touch u_touch u_seq]. rewrite upd_same. apply (fl_n _ _ _ _ _ F).
    + cbn [set_q set_it qq w_touch u_touch u_seq]. rewrite upd_same. cbn [set_q set_it qq w_touch u_touch u_seq]. intro ND. apply NoDup_adel. apply (fl_k _ _ _ _ _ F). auto.
Qed.
Lemma next_run : forall h f i q seq l ix, Inv h f -> it_ok h f q seq l ix -> its h i = ItRun q seq l ix ->
  exists h' r, next i h = (h', Rok r) /\ quiet h h' /\ ni h' = ni h /\ (forall j, j <> i -> its h' j = its h j) /\ outcome h h' i q seq (looked h f q seq l ix) ix r.
Proof.
  intros h f i q seq l ix I O X. pose proof (looked_ok h f q seq l ix I O) as (L1 & L2 & L3 & L4 & L5).
  unfold next, hbind at 1, rd at 1. rewrite X. unfold hbind at 1, rd at 1.
  assert (O' := O). destruct O'. destruct io_told0 as [t T].
  destruct t.
  - set (l' := looked h f q seq l ix) in *.
    assert (LEN : (length l' <= nm h)%nat) by (apply bounded_length; auto; intros x M; apply L2; auto).
    set (h1 := set_q q (fun v => w_touch (aset seq false (u_touch v)) v) h).
    assert (F1 : flags h h1 q seq (Some false)).
    { constructor.
      - unfold told, h1. cbn [set_q set_it qq w_touch u_touch u_seq]. rewrite upd_same. cbn [set_q set_it qq w_touch u_touch u_seq]. apply alookup_aset_same.
      - intros s N. unfold told, h1. cbn [set_q set_it qq w_touch u_touch u_seq]. rewrite upd_same. cbn [set_q set_it qq w_touch u_touch u_seq]. now apply alookup_aset_diff.
      - intros q' N. unfold h1. cbn [set_q set_it qq w_touch u_touch u_seq]. now rewrite upd_diff.
      - unfold h1. cbn [set_q set_it qq w_touch u_touch u_seq]. rewrite upd_same. cbn [set_q set_it qq w_touch u_touch u_seq]. lia.
      - unfold h1. cbn [set_q set_it qq w_touch u_touch u_seq]. rewrite upd_same. cbn [set_q set_it qq w_touch u_touch u_seq]. apply NoDup_aset. }
    assert (LO : iter_loop (length l + nm h + 3) i q seq l ix h = iter_loop (length l + nm h + 2) i q seq l' ix h1).
    { replace (length l + nm h + 3)%nat with (S (length l + nm h + 2)) by lia. cbn [iter_loop]. unfold hbind at 1, rd at 1. unfold told in T. rewrite T, orb_true_r.
      unfold hbind at 1, rd at 1. rewrite (members_ok h f q I io_q0). unfold hbind at 1, hput at 1. fold h1. f_equal.
      unfold l', looked, told. rewrite T. apply add_new_spec; [|apply (iv_nodup h f q I)]. rewrite <- (firstn_skipn ix l) in io_nd0. apply nodup_app in io_nd0. tauto. }
    rewrite LO. apply loop_out; auto; [apply touch_quiet|lia].
  - assert (EQ : looked h f q seq l ix = l) by (unfold looked; rewrite T; reflexivity). rewrite EQ.
    apply loop_out; auto; [apply quiet_refl| |lia]. constructor; auto. lia.
Qed.

(** *** the generators *)
Record Its (h : heap) (f : nat -> list nat) : Prop := {
  is_new : forall i q, its h i = ItNew q -> (q < nq h)%nat;
  is_run : forall i q seq l ix, its h i = ItRun q seq l ix -> it_ok h f q seq l ix;
  is_diff : forall i j q seq l ix l' ix', its h i = ItRun q seq l ix -> its h j = ItRun q seq l' ix' -> i = j;
  is_keys : forall q s, (q < nq h)%nat -> In s (keys (u_touch (qq h q))) -> (s <= u_seq (qq h q))%nat;
  is_nd : forall q, (q < nq h)%nat -> NoDup (keys (u_touch (qq h q)));
  is_done : forall i, (ni h <= i)%nat -> its h i = ItDone }.
(** what a generator goes on with *)
Inductive rests (h : heap) (f : nat -> list nat) (i q : nat) : nat -> list nat -> nat -> Prop :=
| rs_new : its h i = ItNew q -> rests h f i q (S (u_seq (qq h q))) (f q) 0
| rs_run : forall seq l ix, its h i = ItRun q seq l ix -> rests h f i q seq (looked h f q seq l ix) ix.
Lemma next_ok : forall h f i, Inv h f -> Its h f ->
  (its h i = ItDone /\ next i h = (h, Rok None)) \/
  exists q seq l ix h' r, rests h f i q seq l ix /\ next i h = (h', Rok r) /\ quiet h h' /\ ni h' = ni h /\ (forall j, j <> i -> its h' j = its h j) /\ outcome h h' i q seq l ix r.
Proof.
  intros h f i I IS. destruct (its h i) as [q|q seq l ix|] eqn:X.
  - right. pose proof (is_new _ _ IS i q X) as L.
    set (h1 := set_q q (fun v => mkQu (u_head v) (u_tail v) (u_len v) (u_cap v) (u_av v) (aset (S (u_seq v)) false (u_touch v)) (S (u_seq v)) (u_arr v) (u_dep v) (u_llog v) (u_slog v)) h).
    assert (Q1 : quiet h h1).
    { constructor; auto. intro q'. unfold h1. cbn [qq set_q]. unfold upd. destruct (Nat.eqb_spec q' q) as [->|N]; [reflexivity|destruct (qq h q'); reflexivity]. }
    assert (U : u_seq (qq h1 q) = S (u_seq (qq h q))) by (unfold h1; cbn [qq set_q]; rewrite upd_same; reflexivity).
    assert (UT : u_touch (qq h1 q) = aset (S (u_seq (qq h q))) false (u_touch (qq h q))) by (unfold h1; cbn [qq set_q]; rewrite upd_same; reflexivity).
    pose proof (quiet_inv h h1 f Q1 I) as I1.
    exists q, (S (u_seq (qq h q))), (f q), 0%nat.
    assert (E : next i h = iter_loop (length (f q) + nm h + 3) i q (S (u_seq (qq h q))) (f q) 0 h1).
    { unfold next, hbind at 1, rd at 1. rewrite X. unfold hbind at 1, hput at 1. fold h1. unfold hbind at 1, rd at 1. rewrite U. unfold hbind at 1, rd at 1. rewrite (members_ok h1 f q I1) by auto. reflexivity. }
    rewrite E.
    destruct (loop_out (length (f q) + nm h + 3) i q (S (u_seq (qq h q))) (f q) 0 h h1 Q1) as (h' & r & A & B & C & D & F); auto; try lia.
    + constructor.
      * unfold told. rewrite UT. apply alookup_aset_same.
      * intros s N. unfold told. rewrite UT. now apply alookup_aset_diff.
      * intros q' N. unfold h1. cbn [qq set_q]. now rewrite upd_diff.
      * rewrite U. lia.
      * rewrite UT. apply NoDup_aset.
    + exists h', r. split; [apply rs_new; auto|]. auto 10.
  - right. destruct (next_run h f i q seq l ix I (is_run _ _ IS _ _ _ _ _ X) X) as (h' & r & A). exists q, seq, (looked h f q seq l ix), ix, h', r. split; [apply rs_run; auto|auto].
  - left. split; auto. unfold next, hbind, rd. rewrite X. reflexivity.
Qed.
Lemma rests_ok : forall h f i q seq l ix, Inv h f -> Its h f -> rests h f i q seq l ix ->
  (q < nq h)%nat /\ NoDup l /\ (forall m, In m l -> (m < nm h)%nat /\ m_q (mm h m) = q) /\ (ix <= length l)%nat /\ filter (alive h) (skipn ix l) = unseen f q (firstn ix l) /\
  (forall j s l' ix', j <> i -> its h j = ItRun q s l' ix' -> s <> seq).
Proof.
  intros h f i q seq l ix I IS R. destruct R as [X|seq l ix X].
  - pose proof (is_new _ _ IS i q X) as L. split; auto. split; [apply (iv_nodup h f q I)|]. split; [intros m M; apply (iv_in_lt _ _ _ _ I L M)|]. split; [lia|]. split.
    + cbn [skipn firstn]. unfold unseen. cbn. rewrite filter_all by (intros m M; eapply alive_in; eauto). symmetry. apply filter_all. auto.
    + intros j s l' ix' N J. pose proof (io_seq _ _ _ _ _ _ (is_run _ _ IS _ _ _ _ _ J)). lia.
  - pose proof (is_run _ _ IS _ _ _ _ _ X) as O. pose proof (looked_ok h f q seq l ix I O) as (L1 & L2 & L3 & L4 & L5). split; [apply O|]. split; auto. split; auto. split; auto. split; [rewrite L5; auto|].
    intros j s l' ix' N J ->. apply N. eapply is_diff; eauto.
Qed.
(** the first that is still there *)
Lemma first_alive : forall h l k ix c, (ix <= k < length l)%nat -> (forall j, (ix <= j < k)%nat -> m_comp (mm h (nth j l 0%nat)) = None) -> m_comp (mm h (nth k l 0%nat)) = Some c ->
  filter (alive h) (skipn ix l) = nth k l 0%nat :: filter (alive h) (skipn (S k) l).
Proof.
  intros h l k ix c K. remember (k - ix)%nat as d eqn:D. revert ix K D. induction d as [|d IH]; intros ix K D B C.
  - assert (k = ix) by lia. subst k.
    assert (E : skipn ix l = nth ix l 0%nat :: skipn (S ix) l). { clear - K. revert ix K. induction l as [|x l IH]; intros ix K; cbn in K; [lia|]. destruct ix; cbn; auto. rewrite IH by lia. cbn. destruct l; auto. }
    rewrite E. cbn [filter]. unfold alive at 1. rewrite C. reflexivity.
  - assert (E : skipn ix l = nth ix l 0%nat :: skipn (S ix) l). { clear - K D. assert (ix < length l)%nat by lia. clear K D. revert ix H. induction l as [|x l IH]; intros ix K; cbn in K; [lia|]. destruct ix; cbn; auto. rewrite IH by lia. cbn. destruct l; auto. }
    rewrite E. cbn [filter]. unfold alive at 1. rewrite (B ix) by lia. apply (IH (S ix)); auto; [lia|lia|]. intros j J. apply B. lia.
Qed.
Lemma nth_skip : forall (l : list nat) ix n, nth n (skipn ix l) 0%nat = nth (ix + n) l 0%nat.
Proof. induction l as [|x l IH]; intros ix n; [destruct ix, n; reflexivity|]. destruct ix; cbn; auto. Qed.
Lemma none_alive : forall h l ix, (forall j, (ix <= j < length l)%nat -> m_comp (mm h (nth j l 0%nat)) = None) -> filter (alive h) (skipn ix l) = [].
Proof.
  intros h l ix B. apply filter_none. intros m M. apply (In_nth _ _ 0%nat) in M. destruct M as (n & LN & <-). rewrite skipn_length in LN. unfold alive. rewrite nth_skip. rewrite B by lia. reflexivity.
Qed.

Lemma filter_both : forall A (f g : A -> bool) l, filter f (filter g l) = filter (fun a => g a && f a) l.
Proof. induction l as [|a l IH]; cbn; auto. destruct (g a); cbn; auto. destruct (f a); cbn; auto. f_equal. auto. Qed.
Lemma nth_first : forall (l : list nat) ix n, (n < ix)%nat -> nth n (firstn ix l) 0%nat = nth n l 0%nat.
Proof. induction l as [|x l IH]; intros ix n L; destruct ix; try lia; cbn; [destruct n; auto|]. destruct n; auto. apply IH. lia. Qed.
(** the list of a generator that has just given the member at k *)
Lemma given : forall h f q l k ix c, Inv h f -> NoDup l -> (ix <= k < length l)%nat -> (forall j, (ix <= j < k)%nat -> m_comp (mm h (nth j l 0%nat)) = None) -> m_comp (mm h (nth k l 0%nat)) = Some c ->
  filter (alive h) (skipn ix l) = unseen f q (firstn ix l) -> filter (alive h) (skipn (S k) l) = unseen f q (firstn (S k) l).
Proof.
  intros h f q l k ix c I ND K B C E. pose proof (first_alive h l k ix c K B C) as FA. rewrite FA in E.
  assert (X : unseen f q (firstn (S k) l) = filter (fun m => negb (Nat.eqb m (nth k l 0%nat))) (unseen f q (firstn ix l))).
  { unfold unseen. rewrite filter_both. apply filter_ext_in. intros m M.
    assert (G : memb m (firstn (S k) l) = memb m (firstn ix l) || Nat.eqb m (nth k l 0%nat)); [|rewrite G; destruct (memb m (firstn ix l)), (Nat.eqb m (nth k l 0%nat)); reflexivity].
    apply eq_true_iff_eq. rewrite orb_true_iff, !memb_iff, Nat.eqb_eq. split.
    - intro F. apply (In_nth _ _ 0%nat) in F. destruct F as (n & LN & EN). rewrite firstn_length in LN. rewrite nth_first in EN by lia.
      destruct (Nat.lt_ge_cases n ix) as [L|L].
      + left. rewrite <- EN. rewrite <- (nth_first l ix n L). apply nth_In. rewrite firstn_length. lia.
      + destruct (Nat.eq_dec n k) as [->|N]; [right; auto|]. rewrite <- EN in M. pose proof (B n ltac:(lia)) as D. apply (alive_in h f q _ I) in M. unfold alive in M. rewrite D in M. discriminate.
    - intros [F| ->].
      + apply (In_nth _ _ 0%nat) in F. destruct F as (n & LN & EN). rewrite firstn_length in LN. rewrite nth_first in EN by lia. rewrite <- EN. rewrite <- (nth_first l (S k) n) by lia. apply nth_In. rewrite firstn_length. lia.
      + rewrite <- (nth_first l (S k) k) by lia. apply nth_In. rewrite firstn_length. lia. }
  rewrite X, <- E. cbn [filter]. rewrite Nat.eqb_refl. cbn [negb]. symmetry. apply filter_all. intros m M. apply filter_In in M. destruct M as [M _].
  destruct (Nat.eqb_spec m (nth k l 0%nat)) as [->|]; auto. exfalso.
  apply (In_nth _ _ 0%nat) in M. destruct M as (n & LN & EN). rewrite skipn_length in LN. rewrite nth_skip in EN. apply (NoDup_nth l 0%nat) in EN; auto; lia.
Qed.
Lemma it_ok_quiet : forall h h' f q seq l ix, quiet h h' -> it_ok h f q seq l ix -> told h' q seq = told h q seq -> (u_seq (qq h q) <= u_seq (qq h' q))%nat -> it_ok h' f q seq l ix.
Proof.
  intros h h' f q seq l ix Q O T U. destruct O. constructor; rewrite ?T, ?(qt_nq _ _ Q), ?(qt_nm _ _ Q), ?(qt_mm _ _ Q); auto; [lia|].
  unfold alive. rewrite (qt_mm _ _ Q). auto.
Qed.
Lemma told_key : forall h q s b, told h q s = Some b -> In s (keys (u_touch (qq h q))).
Proof. intros h q s b T. unfold told in T. eapply alookup_Some_key; eauto. Qed.
Lemma next_its : forall h f i q seq l ix h' r, Inv h f -> Its h f -> rests h f i q seq l ix -> quiet h h' -> ni h' = ni h -> (forall j, j <> i -> its h' j = its h j) ->
  outcome h h' i q seq l ix r -> Its h' f.
Proof.
  intros h f i q seq l ix h' r I IS R Q NI OTH OUT. destruct (rests_ok h f i q seq l ix I IS R) as (L & ND & LT & LX & ALL & DIFF).
  assert (F : exists b, flags h h' q seq b /\ (b = None \/ b = Some false)) by (destruct r; [destruct OUT as (k & _ & _ & _ & _ & F)|destruct OUT as (_ & _ & F)]; eauto).
  destruct F as (b & F & FB).
  assert (US : forall q', (u_seq (qq h q') <= u_seq (qq h' q'))%nat).
  { intro q'. destruct (Nat.eq_dec q' q) as [->|N]; [rewrite (fl_n _ _ _ _ _ F); lia|rewrite (fl_q _ _ _ _ _ F q' N); lia]. }
  assert (RUN : forall j q' s l' ix', j <> i -> its h' j = ItRun q' s l' ix' -> it_ok h' f q' s l' ix').
  { intros j q' s l' ix' N J. rewrite OTH in J by auto. apply (it_ok_quiet h); auto; [apply (is_run _ _ IS _ _ _ _ _ J)|].
    destruct (Nat.eq_dec q' q) as [->|NQ]; [apply (fl_o _ _ _ _ _ F); eapply DIFF; eauto|unfold told; rewrite (fl_q _ _ _ _ _ F q' NQ); auto]. }
  assert (IH : forall q' s l' ix', its h' i = ItRun q' s l' ix' -> q' = q /\ s = seq /\ it_ok h' f q' s l' ix').
  { intros q' s l' ix' J. destruct r as [c|]; [|destruct OUT as (_ & E & _); congruence]. destruct OUT as (k & K & B & C & E & F').
    rewrite E in J. injection J as <- <- <- <-. split; auto. split; auto. constructor.
    - rewrite (qt_nq _ _ Q). auto.
    - rewrite (fl_n _ _ _ _ _ F). lia.
    - rewrite (fl_s _ _ _ _ _ F'). eauto.
    - auto.
    - rewrite (qt_nm _ _ Q), (qt_mm _ _ Q). auto.
    - lia.
    - intros _. pose proof (given h f q l k ix c I ND K B C ALL) as G. unfold alive. rewrite (qt_mm _ _ Q). exact G. }
  constructor.
  - intros j q' J. destruct (Nat.eq_dec j i) as [->|N].
    + destruct r as [c|]; [destruct OUT as (k & _ & _ & _ & E & _)|destruct OUT as (_ & E & _)]; congruence.
    + rewrite OTH in J by auto. rewrite (qt_nq _ _ Q). eapply is_new; eauto.
  - intros j q' s l' ix' J. destruct (Nat.eq_dec j i) as [->|N]; [apply IH; auto|eauto].
  - intros j1 j2 q' s l1 x1 l2 x2 J1 J2. destruct (Nat.eq_dec j1 i) as [->|N1]; destruct (Nat.eq_dec j2 i) as [->|N2]; auto.
    + exfalso. apply IH in J1. destruct J1 as (-> & -> & _). rewrite OTH in J2 by auto. eapply DIFF; eauto.
    + exfalso. apply IH in J2. destruct J2 as (-> & -> & _). rewrite OTH in J1 by auto. eapply DIFF; eauto.
    + rewrite OTH in J1, J2 by auto. eapply is_diff; eauto.
  - intros q' s L' K. rewrite (qt_nq _ _ Q) in L'. destruct (Nat.eq_dec q' q) as [->|N].
    + apply alookup_ex in K. destruct K as [v K]. destruct (Nat.eq_dec s seq) as [->|NS]; [rewrite (fl_n _ _ _ _ _ F); lia|].
      pose proof (fl_o _ _ _ _ _ F s NS) as T. unfold told in T. rewrite K in T. symmetry in T. apply told_key in T. apply (is_keys _ _ IS q s L') in T. specialize (US q). lia.
    + rewrite (fl_q _ _ _ _ _ F q' N) in *. eapply is_keys; eauto.
  - intros q' L'. rewrite (qt_nq _ _ Q) in L'. destruct (Nat.eq_dec q' q) as [->|N]; [apply (fl_k _ _ _ _ _ F); apply (is_nd _ _ IS); auto|rewrite (fl_q _ _ _ _ _ F q' N); apply (is_nd _ _ IS); auto].
  - intros j J. rewrite NI in J. destruct (Nat.eq_dec j i) as [->|N]; [|rewrite OTH by auto; apply (is_done _ _ IS); auto].
    exfalso. pose proof (is_done _ _ IS i J) as D. destruct R; congruence.
Qed.
Lemma iter_its : forall h f q, Its h f -> (q < nq h)%nat -> Its (fst (new_iter q h)) f.
Proof.
  intros h f q IS L. unfold new_iter. cbn [fst]. destruct IS. constructor; cbn [its nq qq ni].
  - intros i q'. unfold upd. destruct (Nat.eqb_spec i (ni h)); [intro E; injection E as <-; auto|eauto].
  - intros i q' s l ix. unfold upd. destruct (Nat.eqb_spec i (ni h)); [discriminate|]. intro E. apply is_run0 in E. destruct E. constructor; auto.
  - intros i j q' s l ix l' ix'. unfold upd. destruct (Nat.eqb_spec i (ni h)); [discriminate|]. destruct (Nat.eqb_spec j (ni h)); [discriminate|]. eauto.
  - auto.
  - auto.
  - intros i J. rewrite upd_diff by lia. apply is_done0. lia.
Qed.

(** the other operations *)
Lemma touch_keys : forall l, keys (touch_all l) = keys l.
Proof. intro l. unfold keys, touch_all. rewrite map_map. reflexivity. Qed.
Lemma touch_true : forall l s b, alookup s (touch_all l) = Some b -> b = true.
Proof. induction l as [|[k v] l IH]; cbn; intros s b E; [discriminate|]. destruct (Nat.eqb s k); [injection E as <-; auto|eauto]. Qed.
Lemma touch_some : forall l s b, alookup s l = Some b -> alookup s (touch_all l) = Some true.
Proof. induction l as [|[k v] l IH]; cbn; intros s b E; [discriminate|]. destruct (Nat.eqb s k); [auto|eauto]. Qed.
(** what the other operations do to the flags and the members looked at *)
Lemma its_step : forall h f h' f', Its h f -> nq h' = nq h -> (nm h <= nm h')%nat -> its h' = its h -> ni h' = ni h ->
  (forall m, (m < nm h)%nat -> m_q (mm h' m) = m_q (mm h m)) ->
  (forall q, u_seq (qq h' q) = u_seq (qq h q) /\ keys (u_touch (qq h' q)) = keys (u_touch (qq h q)) /\
     (forall s b, told h q s = Some b -> exists b', told h' q s = Some b') /\
     (forall s l ix, NoDup l -> (forall m, In m l -> (m < nm h)%nat /\ m_q (mm h m) = q) -> told h' q s = Some false -> (q < nq h)%nat -> (told h q s = Some false -> filter (alive h) (skipn ix l) = unseen f q (firstn ix l)) ->
        filter (alive h') (skipn ix l) = unseen f' q (firstn ix l))) ->
  Its h' f'.
Proof.
  intros h f h' f' IS NQ NM IT NI MQ S. destruct IS. constructor; rewrite ?NQ, ?IT, ?NI; auto.
  - intros i q s l ix E. specialize (is_run0 _ _ _ _ _ E). destruct is_run0. destruct (S q) as (S1 & S2 & S3 & S4). constructor; rewrite ?NQ, ?S1; auto.
    + destruct io_told0 as [t T]. eauto.
    + intros m M. apply io_lt0 in M. destruct M as [M1 M2]. split; [lia|]. rewrite MQ; auto.
    + intro T. apply (S4 s l ix); auto.
  - intros q s L K. destruct (S q) as (S1 & S2 & _). rewrite S1. rewrite S2 in K. auto.
  - intros q L. destruct (S q) as (_ & S2 & _). rewrite S2. auto.
Qed.
Lemma memb_ext : forall x l l', (In x l <-> In x l') -> memb x l = memb x l'.
Proof. intros x l l' E. apply eq_true_iff_eq. rewrite !memb_iff. exact E. Qed.
Lemma prim_its : forall h f h' f', prim h f h' f' -> Its h f -> Its h' f'.
Proof.
  intros h f h' f' P IS. destruct P.
  - destruct H4.
    assert (OLD : forall x, (x < nm h)%nat -> m_comp (mm h' x) = m_comp (mm h x) /\ m_q (mm h' x) = m_q (mm h x)) by (intros x X; destruct (in_old x ltac:(lia)) as (_ & A & B & _); auto).
    eapply its_step; eauto; [lia|intros m M; apply OLD; auto|]. intro q'. destruct (Nat.eq_dec q' q) as [->|N].
    + unfold told. rewrite in_q. cbn [q_in u_seq u_touch]. split; auto. split; [apply touch_keys|]. split; [intros s b0 T; apply touch_some in T; eauto|].
      intros s l ix _ _ T. apply touch_true in T. discriminate.
    + unfold told. rewrite in_qo by auto. split; auto. split; auto. split; [eauto|]. intros s l ix ND LT T LQ E. specialize (E T). unfold unseen. rewrite upd_diff by auto.
      unfold unseen in E. rewrite <- E. apply filter_ext_in. intros m M. unfold alive. destruct (OLD m) as [-> _]; auto. apply LT. eapply in_skip; eauto.
  - assert (OLD : forall x, x <> m -> m_comp (mm h' x) = m_comp (mm h x)) by (apply H3). assert (MQ := iv_in_lt h f q m H H0 ltac:(rewrite H1; apply in_elt)). destruct H3.
    eapply its_step; eauto; [lia|intros x M; apply lf_old|]. intro q'. destruct (Nat.eq_dec q' q) as [->|N].
    + unfold told. rewrite lf_q. cbn [q_out u_seq u_touch]. split; auto. split; auto. split; [eauto|].
      intros s l ix ND LT T LQ E. specialize (E T). unfold unseen in *. rewrite upd_same.
      pose proof (iv_nodup h f q H) as NF. rewrite H1 in *. apply NoDup_remove_2 in NF. assert (NA : ~ In m a) by (intro; apply NF; apply in_or_app; auto). assert (NB : ~ In m b) by (intro; apply NF; apply in_or_app; auto).
      assert (X1 : filter (alive h') (skipn ix l) = filter (fun x => negb (Nat.eqb x m)) (filter (alive h) (skipn ix l))).
      { rewrite filter_both. apply filter_ext_in. intros x M. unfold alive. destruct (Nat.eqb_spec x m) as [->|NX]; [rewrite lf_gone, andb_false_r; reflexivity|]. rewrite OLD, andb_true_r by auto. reflexivity. }
      rewrite X1, E. rewrite !filter_app. cbn [filter]. 
      assert (X2 : forall g z, ~ In m z -> filter (fun x => negb (Nat.eqb x m)) (filter g z) = filter g z).
      { intros g z NI. apply filter_all. intros x X. apply filter_In in X. destruct (Nat.eqb_spec x m) as [->|]; [tauto|auto]. }
      rewrite X2 by auto. f_equal. destruct (negb (memb m (firstn ix l))); cbn [filter]; [rewrite Nat.eqb_refl; cbn [negb]|]; apply X2; auto.
    + unfold told. rewrite lf_qo by auto. split; auto. split; auto. split; [eauto|]. intros s l ix ND LT T LQ E. specialize (E T). unfold unseen. rewrite upd_diff by auto.
      unfold unseen in E. rewrite <- E. apply filter_ext_in. intros x M. unfold alive. rewrite OLD; auto. intros ->. apply in_skip in M. apply LT in M. destruct M. destruct MQ. congruence.
  - destruct H4. eapply its_step; eauto; [lia|intros z M; apply mv_old|]. intro q'. destruct (Nat.eq_dec q' q) as [->|N].
    + unfold told. rewrite mv_q. cbn [q_touch w_touch u_seq u_touch]. split; auto. split; [apply touch_keys|]. split; [intros s b0 T; apply touch_some in T; eauto|].
      intros s l ix _ _ T. apply touch_true in T. discriminate.
    + unfold told. rewrite mv_qo by auto. split; auto. split; auto. split; [eauto|]. intros s l ix ND LT T LQ E. specialize (E T). unfold unseen. rewrite upd_diff by auto.
      unfold unseen in E. rewrite <- E. apply filter_ext_in. intros z M. unfold alive. destruct (mv_old z) as [-> _]; auto.
  - apply (its_step h f); auto. intro q'. unfold told. cbn [set_q qq]. unfold upd. destruct (Nat.eqb_spec q' q) as [->|N].
    + cbn [w_av w_cap u_seq u_touch]. split; auto. split; auto. split; [eauto|]. intros s l ix ND LT T LQ E. apply E. auto.
    + split; auto. split; auto. split; [eauto|]. intros s l ix ND LT T LQ E. apply E. auto.
  - (* a new queue *)
    assert (OLD : forall x, (x < nm h)%nat -> mm (fst (new_queue cap h)) x = mm h x). { intros x X. cbn. unfold upd. destruct (Nat.eqb_spec x (S (nm h))); [lia|]. destruct (Nat.eqb_spec x (nm h)); [lia|auto]. }
    assert (QO : forall x, (x < nq h)%nat -> qq (fst (new_queue cap h)) x = qq h x). { intros x X. cbn. rewrite upd_diff by lia. auto. }
    assert (QN : u_touch (qq (fst (new_queue cap h)) (nq h)) = []). { cbn. rewrite upd_same. reflexivity. }
    assert (NQ : nq (fst (new_queue cap h)) = S (nq h)) by reflexivity. assert (IT : its (fst (new_queue cap h)) = its h) by reflexivity. assert (NI : ni (fst (new_queue cap h)) = ni h) by reflexivity.
    assert (NM : (nm h <= nm (fst (new_queue cap h)))%nat) by (cbn; lia).
    destruct IS. constructor; rewrite ?IT, ?NI; auto.
    + intros i q E. apply is_new0 in E. lia.
    + intros i q s l ix E. apply is_run0 in E. destruct E. constructor; unfold told in *; rewrite ?QO by auto; auto; try lia.
      * intros m M. destruct (io_lt0 m M). rewrite OLD by auto. split; auto. lia.
      * intro T. specialize (io_all0 T). unfold unseen. rewrite upd_diff by lia. unfold unseen in io_all0. rewrite <- io_all0. apply filter_ext_in. intros x M. unfold alive. rewrite OLD; auto. apply io_lt0. eapply in_skip; eauto.
    + intros q s L K. destruct (Nat.eq_dec q (nq h)) as [->|N]; [rewrite QN in K; destruct K|]. rewrite QO in * by lia. apply is_keys0; auto. lia.
    + intros q L. destruct (Nat.eq_dec q (nq h)) as [->|N]; [rewrite QN; constructor|]. rewrite QO in * by lia. apply is_nd0. lia.
  - destruct IS. constructor; auto. intros i q s l ix E. apply is_run0 in E. destruct E. constructor; auto.
Qed.
Lemma prims_its : forall h f h' f', prims h f h' f' -> Its h f -> Its h' f'.
Proof. intros h f h' f' P IS. induction P; auto. eapply prim_its; eauto. Qed.
Lemma start_its : forall t0, Its (start t0) (fun _ => []).
Proof. intro t0. constructor; cbn; intros; try discriminate; try lia; auto. Qed.
