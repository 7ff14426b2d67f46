(** Statistics, reading and iterating, for all reachable heaps of queues. *)
From Coq Require Import QArith Lqa List Bool Arith ZArith Lia.
From Verif Require Import Base QHeap QSpec QHeapP QHeapR QHeapI.
Import ListNotations.
Open Scope Q_scope.
Open Scope h_scope.

(** *** the tallies *)
(** the time integral up to t of a step function, given by its changes (the last one first) *)
Fixpoint area (t : Q) (l : list (Q * Z)) : Q := match l with [] => 0 | (t1, n) :: r => inject_Z n * (t - t1) + area t1 r end.
Definition ages (h : heap) (l : list nat) : Q := sumQ (map (fun m => ck h - m_time (mm h m)) l).
Record Log (h : heap) (f : nat -> list nat) : Prop := {
  lg_last : forall q, (q < nq h)%nat -> exists t r, u_llog (qq h q) = (t, u_len (qq h q)) :: r /\ t <= ck h;
  lg_area : forall q, (q < nq h)%nat -> area (ck h) (u_llog (qq h q)) == sumQ (u_slog (qq h q)) + ages h (f q);
  lg_time : forall q m, (q < nq h)%nat -> In m (f q) -> m_time (mm h m) <= ck h;
  lg_stay : forall q s, (q < nq h)%nat -> In s (u_slog (qq h q)) -> 0 <= s;
  lg_num : forall q, (q < nq h)%nat -> (u_arr (qq h q) - u_dep (qq h q) = u_len (qq h q))%Z;
  lg_dep : forall q, (q < nq h)%nat -> u_dep (qq h q) = Z.of_nat (length (u_slog (qq h q))) }.
Lemma ages_ext : forall h h' l, ck h' = ck h -> (forall m, In m l -> m_time (mm h' m) = m_time (mm h m)) -> ages h' l = ages h l.
Proof. intros h h' l C E. unfold ages. f_equal. apply map_ext_in. intros m M. rewrite C, E; auto. Qed.
Lemma ages_app : forall h a b, ages h (a ++ b) == ages h a + ages h b.
Proof. intros. unfold ages. rewrite map_app, sumQ_app. reflexivity. Qed.
Lemma ages_cons : forall h m b, ages h (m :: b) = ck h - m_time (mm h m) + ages h b.
Proof. reflexivity. Qed.
Lemma area_top : forall t n l, area t ((t, n) :: l) == area t l.
Proof. intros. cbn. ring. Qed.
(** steps that leave times and the tallies of queues alone *)
Lemma log_same : forall h h' f f', Log h f -> nq h' = nq h -> ck h' = ck h -> (forall q, (q < nq h)%nat -> u_llog (qq h' q) = u_llog (qq h q) /\ u_slog (qq h' q) = u_slog (qq h q) /\ u_len (qq h' q) = u_len (qq h q) /\ u_arr (qq h' q) = u_arr (qq h q) /\ u_dep (qq h' q) = u_dep (qq h q)) ->
  (forall m, m_time (mm h' m) = m_time (mm h m)) -> (forall q, (q < nq h)%nat -> ages h (f' q) == ages h (f q) /\ forall m, In m (f' q) -> In m (f q)) -> Log h' f'.
Proof.
  intros h h' f f' G NQ CK S T F. destruct G. constructor; rewrite ?NQ, ?CK.
  - intros q L. destruct (S q L) as (S1 & S2 & S3 & S4 & S5). rewrite S1, S3. auto.
  - intros q L. destruct (S q L) as (S1 & S2 & S3 & S4 & S5). rewrite S1, S2. rewrite (ages_ext h h' (f' q)) by auto. destruct (F q L) as [-> _]. auto.
  - intros q m L M. rewrite T. apply (lg_time0 q m L). apply (F q L); auto.
  - intros q s L. destruct (S q L) as (S1 & S2 & S3 & S4 & S5). rewrite S2. apply (lg_stay0 q); auto.
  - intros q L. destruct (S q L) as (S1 & S2 & S3 & S4 & S5). rewrite S3, S4, S5. auto.
  - intros q L. destruct (S q L) as (S1 & S2 & S3 & S4 & S5). rewrite S2, S5. auto.
Qed.
Lemma prim_log : forall h f h' f', prim h f h' f' -> Log h f -> Log h' f'.
Proof.
  intros h f h' f' P G. destruct P as [h f h' q a b c p I L E MB RO IN I'|h f h' q a m b c I L E C LF I'|h f h' q a m b c x y p I L E C XY MV I'|h f q cap av I L|h f cap I|h f dt I D].
  - destruct IN. destruct G.
    assert (TM : forall z m, (z < nq h)%nat -> In m (f z) -> m_time (mm h' m) = m_time (mm h m)) by (intros z m Z M; destruct (in_old m) as (_ & _ & _ & X); auto; pose proof (iv_in_lt _ _ _ _ I Z M); lia).
    constructor; rewrite ?in_nq, ?in_ck; intros z; (destruct (Nat.eq_dec z q) as [->|N]; [rewrite ?in_q, ?upd_same|rewrite ?in_qo, ?upd_diff by auto; auto]).
    + intros _. cbn. eexists _, _. split; [reflexivity|apply Qle_refl].
    + intros _. cbn [q_in u_llog u_slog]. rewrite area_top, lg_area0 by auto. rewrite ages_app, ages_cons. destruct in_new as (_ & _ & _ & ->). rewrite in_ck.
      rewrite (ages_ext h h' a), (ages_ext h h' b) by (auto; intros m M; apply (TM q); auto; rewrite E; apply in_or_app; auto). rewrite E, ages_app. ring.
    + intro Z. rewrite lg_area0 by auto. rewrite (ages_ext h h' (f z)); [reflexivity|auto|]. intros m M. eapply TM; eauto.
    + intros m _ M. apply in_app_or in M. destruct M as [M|[<-|M]].
      * rewrite (TM q) by (auto; rewrite E; apply in_or_app; auto). apply (lg_time0 q); auto. rewrite E. apply in_or_app; auto.
      * destruct in_new as (_ & _ & _ & ->). apply Qle_refl.
      * rewrite (TM q) by (auto; rewrite E; apply in_or_app; auto). apply (lg_time0 q); auto. rewrite E. apply in_or_app; auto.
    + intros m Z M. rewrite (TM z) by auto. eauto.
    + intros s _. cbn. apply lg_stay0. auto.
    + intros s Z. apply (lg_stay0 z); auto.
    + intros _. cbn. specialize (lg_num0 q L). lia.
    + intros _. cbn. auto.
  - destruct LF. assert (TM : forall m, m_time (mm h' m) = m_time (mm h m)) by (intro z; apply lf_old). pose proof (lg_time _ _ G q m L ltac:(rewrite E; apply in_elt)) as TI.
    destruct G. constructor; rewrite ?lf_nq, ?lf_ck; intros z; (destruct (Nat.eq_dec z q) as [->|N]; [rewrite ?lf_q, ?upd_same|rewrite ?lf_qo, ?upd_diff by auto; auto]).
    + intros _. cbn. eexists _, _. split; [reflexivity|apply Qle_refl].
    + intros _. cbn [q_out u_llog u_slog]. rewrite area_top, lg_area0 by auto. cbn [sumQ]. rewrite E, !ages_app, ages_cons. rewrite (ages_ext h h' a), (ages_ext h h' b) by auto. ring.
    + intro Z. rewrite lg_area0 by auto. rewrite (ages_ext h h' (f z)) by auto. reflexivity.
    + intros x _ M. rewrite TM. apply (lg_time0 q); auto. rewrite E. apply in_app_or in M. apply in_or_app. cbn. tauto.
    + intros x Z M. rewrite TM. eauto.
    + intros s _. cbn. intros [<-|M]; [lra|]. apply (lg_stay0 q); auto.
    + intros s Z. apply (lg_stay0 z); auto.
    + intros _. cbn. specialize (lg_num0 q L). lia.
    + intros _. cbn [q_out u_dep u_slog length]. rewrite lg_dep0 by auto. lia.
  - destruct MV. apply (log_same h h' f); auto.
    + intros z Z. destruct (Nat.eq_dec z q) as [->|N]; [rewrite mv_q; cbn; auto 10|rewrite mv_qo by auto; auto 10].
    + intro z. apply mv_old.
    + intros z Z. destruct (Nat.eq_dec z q) as [->|N]; [rewrite upd_same|rewrite upd_diff by auto; split; [reflexivity|auto]]. split.
      * pose proof (ages_app h a b) as A1. rewrite XY in A1. rewrite ages_app in A1. rewrite E, !ages_app, !ages_cons. lra.
      * intros k K. rewrite E. assert (K' : In k (x ++ y) \/ k = m) by (apply in_app_or in K; cbn in K; rewrite in_app_iff; intuition). rewrite <- XY, in_app_iff in K'. apply in_or_app. cbn. intuition.
  - apply (log_same h _ f); auto.
    + intros z Z. cbn. unfold upd. destruct (Nat.eqb_spec z q) as [->|N]; cbn; auto 10.
    + intros z Z. split; [reflexivity|auto].
  - assert (QO : forall x, (x < nq h)%nat -> qq (fst (new_queue cap h)) x = qq h x). { intros x X. cbn. rewrite upd_diff by lia. auto. }
    assert (QN : qq (fst (new_queue cap h)) (nq h) = mkQu (nm h) (S (nm h)) 0 cap cap [] 0 0 0 [(ck h, 0%Z)] []). { cbn. rewrite upd_same. reflexivity. }
    assert (TM : forall z m, (z < nq h)%nat -> In m (f z) -> m_time (mm (fst (new_queue cap h)) m) = m_time (mm h m)).
    { intros z m Z M. pose proof (iv_in_lt _ _ _ _ I Z M). cbn. rewrite !upd_diff by lia. auto. }
    assert (NQ : nq (fst (new_queue cap h)) = S (nq h)) by reflexivity. assert (CK : ck (fst (new_queue cap h)) = ck h) by reflexivity.
    set (h1 := fst (new_queue cap h)) in *. clearbody h1. destruct G.
    constructor; rewrite ?NQ, ?CK; intros z; (destruct (Nat.eq_dec z (nq h)) as [->|N]; [rewrite ?QN, ?upd_same; cbn [u_llog u_slog u_len u_arr u_dep]|rewrite ?upd_diff by auto]).
    + intros _. eexists _, _. split; [reflexivity|apply Qle_refl].
    + intro Z. rewrite QO by lia. apply lg_last0. lia.
    + intros _. unfold ages. cbn. ring.
    + intro Z. rewrite QO by lia. rewrite lg_area0 by lia. rewrite (ages_ext h h1 (f z)); [reflexivity|auto|]. intros m M. eapply TM; eauto. lia.
    + intros m _ [].
    + intros m Z M. assert (z < nq h)%nat by lia. rewrite (TM z) by auto. eauto.
    + intros s _ [].
    + intros s Z. rewrite QO by lia. apply lg_stay0. lia.
    + intros _. reflexivity.
    + intros Z. rewrite QO by lia. apply lg_num0. lia.
    + intros _. reflexivity.
    + intros Z. rewrite QO by lia. apply lg_dep0. lia.
  - destruct G. constructor; cbn [nq qq ck mm].
    + intros q L. destruct (lg_last0 q L) as (t & r & A & B). exists t, r. split; auto. lra.
    + intros q L. destruct (lg_last0 q L) as (t & r & A & B). pose proof (lg_area0 q L) as AR. rewrite A in *. cbn [area] in *.
      assert (X : forall l, ages (mkH (mm h) (nm h) (qq h) (nq h) (mb h) (ck h + dt) (its h) (ni h)) l == ages h l + inject_Z (Z.of_nat (length l)) * dt).
      { induction l as [|m l IH]; [unfold ages; cbn; ring|]. rewrite !ages_cons. cbn [ck mm length]. rewrite IH. rewrite Nat2Z.inj_succ, <- Z.add_1_r, inject_Z_plus. cbn. ring. }
      rewrite X, <- (iv_len _ _ I q L). lra.
    + intros q m L M. specialize (lg_time0 q m L M). lra.
    + auto.
    + auto.
    + auto.
Qed.
Lemma prims_log : forall h f h' f', prims h f h' f' -> Log h f -> Log h' f'.
Proof. intros h f h' f' P G. induction P; auto. eapply prim_log; eauto. Qed.
Lemma start_log : forall t0, Log (start t0) (fun _ => []).
Proof. intro t0. constructor; cbn; intros; lia. Qed.
Lemma quiet_log : forall h h' f, quiet h h' -> Log h f -> Log h' f.
Proof.
  intros h h' f Q G. apply (log_same h h' f); auto; try apply Q.
  - intros q L. pose proof (quiet_fields h h' q Q). tauto.
  - intro m. rewrite (qt_mm _ _ Q). auto.
  - intros q L. split; [reflexivity|auto].
Qed.

(** *** members are never revived *)
Record older (h h' : heap) : Prop := {
  ol_nm : (nm h <= nm h')%nat; ol_nq : (nq h <= nq h')%nat; ol_ni : ni h' = ni h; ol_its : its h' = its h;
  ol_mm : forall m, (m < nm h)%nat -> m_q (mm h' m) = m_q (mm h m) /\ (m_comp (mm h' m) = m_comp (mm h m) \/ m_comp (mm h' m) = None) }.
Lemma prim_older : forall h f h' f', prim h f h' f' -> older h h'.
Proof.
  intros h f h' f' P. destruct P as [h f h' q a b c p I L E MB RO IN I'|h f h' q a m b c I L E C LF I'|h f h' q a m b c x y p I L E C XY MV I'|h f q cap av I L|h f cap I|h f dt I D].
  - destruct IN. constructor; auto; try lia. intros m M. destruct (in_old m ltac:(lia)) as (_ & -> & -> & _). auto.
  - destruct LF. constructor; auto; try lia. intros x M. destruct (lf_old x) as (_ & -> & _). split; auto. destruct (Nat.eq_dec x m) as [->|N]; auto.
  - destruct MV. constructor; auto; try lia. intros z M. destruct (mv_old z) as (-> & -> & _). auto.
  - constructor; auto.
  - constructor; auto; cbn; try lia. intros m M. rewrite !upd_diff by lia. auto.
  - constructor; auto.
Qed.
Lemma older_refl : forall h, older h h.
Proof. intro h. constructor; auto. Qed.
Lemma older_trans : forall a b c, older a b -> older b c -> older a c.
Proof.
  intros a b c [] []. constructor; try congruence; try lia. intros m M. destruct (ol_mm0 m M) as [A B]. destruct (ol_mm1 m ltac:(lia)) as [C D]. split; [congruence|].
  destruct D as [D|D]; [rewrite D; auto|auto].
Qed.
Lemma prims_older : forall h f h' f', prims h f h' f' -> older h h'.
Proof. intros h f h' f' P. induction P; [apply older_refl|]. eapply older_trans; [exact IHP|eapply prim_older; eauto]. Qed.

(** *** the heaps that can occur *)
Record Hp (h : heap) (f : nat -> list nat) : Prop := { hp_inv : Inv h f; hp_its : Its h f; hp_log : Log h f }.
Lemma hp_prims : forall h f h' f', Hp h f -> prims h f h' f' -> Hp h' f'.
Proof. intros h f h' f' [I S G] P. constructor; [eapply prims_inv; eauto|eapply prims_its; eauto|eapply prims_log; eauto]. Qed.
Lemma iter_ok : forall h f q, Hp h f -> (q < nq h)%nat -> exists h', qexec (QIter q) h = (h', Rok (Some (ni h))) /\ quiet h h' /\ Hp h' f /\ ni h' = S (ni h) /\ its h' = upd (its h) (ni h) (ItNew q).
Proof.
  intros h f q [I S G] L. eexists. split; [reflexivity|].
  assert (Q : quiet h (fst (new_iter q h))) by (constructor; auto; intro q'; cbn; destruct (qq h q'); reflexivity).
  split; [exact Q|]. split; [|split; reflexivity]. constructor; [eapply quiet_inv; eauto|apply iter_its; auto|eapply quiet_log; eauto].
Qed.
Lemma next_hp : forall h f i, Hp h f -> exists h' r, qexec (QNext i) h = (h', Rok r) /\ quiet h h' /\ Hp h' f /\ ni h' = ni h.
Proof.
  intros h f i [I S G]. cbn [qexec]. destruct (next_ok h f i I S) as [(D & E)|(q & seq & l & ix & h' & r & R & E & Q & NI & OT & OUT)].
  - exists h, None. split; auto. split; [apply quiet_refl|]. split; auto. constructor; auto.
  - exists h', r. split; auto. split; auto. split; auto. constructor; [eapply quiet_inv; eauto|eapply next_its; eauto|eapply quiet_log; eauto].
Qed.
Lemma step_hp : forall h f o h' r, Hp h f -> qwf h o -> qexec o h = (h', r) -> exists f', Hp h' f'.
Proof.
  intros h f o h' r P W E. destruct (asks o) eqn:A.
  - destruct o; try discriminate.
    + destruct (iter_ok h f q P W) as (h1 & E1 & _ & P1 & _). rewrite E in E1. injection E1 as -> _. eauto.
    + destruct (next_hp h f i P) as (h1 & r1 & E1 & _ & P1 & _). rewrite E in E1. injection E1 as -> _. eauto.
  - destruct (exec_fine o h f (hp_inv _ _ P) W A) as (h1 & f1 & r1 & E1 & (PR & _) & _). rewrite E in E1. injection E1 as -> _. exists f1. eapply hp_prims; eauto.
Qed.
Theorem reach_hp : forall h, qreach h -> exists f, Hp h f.
Proof.
  intros h R. induction R as [t0|h o h' r R [f P] W E].
  - exists (fun _ => []). constructor; [apply start_inv|apply start_its|apply start_log].
  - eapply step_hp; eauto.
Qed.

(** *** an iterator and what it has given *)
Definition content (h : heap) (q : nat) : list nat := names (p_l (abs h) q).
Definition served (h : heap) (f : nat -> list nat) (q : nat) (s : list nat) (seen : list nat) : Prop :=
  forall c, In c s <-> exists m, In m seen /\ In m (f q) /\ m_comp (mm h m) = Some c.
(** the state of generator i of q when the components in s, all still in q, have been given *)
Definition gives (h : heap) (f : nat -> list nat) (i q : nat) (s : list nat) : Prop :=
  (its h i = ItNew q /\ s = []) \/ (exists seq l ix, its h i = ItRun q seq l ix /\ served h f q s (firstn ix l)).
Lemma content_in : forall h f q c, Inv h f -> (q < nq h)%nat -> (In c (content h q) <-> exists m, In m (f q) /\ m_comp (mm h m) = Some c).
Proof.
  intros h f q c I L. unfold content. rewrite (abs_l h f q I L), names_ents, in_map_iff. split; intros (m & A & B); exists m.
  - destruct (iv_comp _ _ I q m L B) as [c' C]. unfold comp_of in A. rewrite C in A. subst c'. auto.
  - unfold comp_of. rewrite B. auto.
Qed.
Lemma find_unseen : forall h f q s seen, Inv h f -> (q < nq h)%nat -> served h f q s seen ->
  find (fun c => negb (memb c s)) (content h q) = match unseen f q seen with [] => None | m :: _ => m_comp (mm h m) end.
Proof.
  intros h f q s seen I L S. unfold content. rewrite (abs_l h f q I L), names_ents. unfold unseen.
  assert (G : forall l, (forall m, In m l -> In m (f q)) -> find (fun c => negb (memb c s)) (map (comp_of h) l) = match filter (fun m => negb (memb m seen)) l with [] => None | m :: _ => m_comp (mm h m) end).
  { induction l as [|m l IH]; intro SUB; auto. cbn [map find filter]. destruct (iv_comp _ _ I q m L (SUB m (or_introl eq_refl))) as [c C]. assert (CO : comp_of h m = c) by (unfold comp_of; rewrite C; auto).
    assert (M : memb (comp_of h m) s = memb m seen).
    { apply eq_true_iff_eq. rewrite !memb_iff, CO. split.
      - intro X. apply S in X. destruct X as (m' & A & B & D). rewrite (iv_uniq h f c q m m' I L (SUB m (or_introl eq_refl)) B C D). auto.
      - intro X. apply S. exists m. split; auto. split; auto. apply SUB. left. auto. }
    rewrite M. destruct (memb m seen); cbn [negb]; [apply IH; intros x X; apply SUB; right; auto|]. rewrite C, CO. auto. }
  apply G. auto.
Qed.
(** one call of next *)
Lemma gives_next : forall h f i q s h' r, Hp h f -> (q < nq h)%nat -> gives h f i q s -> qexec (QNext i) h = (h', r) ->
  r = Rok (find (fun c => negb (memb c s)) (content h q)) /\ Hp h' f /\ quiet h h' /\
  match r with Rok (Some c) => gives h' f i q (c :: s) | _ => its h' i = ItDone end.
Proof.
  intros h f i q s h' r P L GI E. cbn [qexec] in E. destruct P as [I IS LG].
  destruct (next_ok h f i I IS) as [(D & E1)|(q1 & seq & l & ix & h1 & r1 & R & E1 & Q & NI & OT & OUT)].
  { exfalso. destruct GI as [[X _]|(sq & l & ix & X & _)]; congruence. }
  rewrite E in E1. injection E1 as -> ->.
  assert (q1 = q) by (destruct GI as [[X _]|(sq & l' & ix' & X & _)]; destruct R; congruence). subst q1.
  destruct (rests_ok h f i q seq l ix I IS R) as (_ & ND & LT & LX & ALL & DIFF).
  assert (SV : served h f q s (firstn ix l)).
  { destruct GI as [[X ->]|(sq & l' & ix' & X & S)].
    - destruct R as [R|sq l ix R]; [|congruence]. intro c. split; [intros []|intros (m & [] & _)].
    - destruct R as [R|sq2 l2 ix2 R]; [congruence|]. rewrite X in R. injection R as -> -> ->. rewrite (proj2 (proj2 (proj2 (proj2 (looked_ok h f q sq2 l2 ix2 I (is_run _ _ IS _ _ _ _ _ X)))))). auto. }
  assert (HP : Hp h1 f) by (constructor; [eapply quiet_inv; eauto|eapply next_its; eauto|eapply quiet_log; eauto]).
  assert (MM := qt_mm _ _ Q). rewrite (find_unseen h f q s (firstn ix l)); auto. rewrite <- ALL.
  destruct r1 as [c|].
  - destruct OUT as (k & K & B & C & IT & FL). rewrite (first_alive h l k ix c K B C). split; [rewrite C; auto|]. split; auto. split; auto.
    right. exists seq, l, (S k). split; auto. intro d. split.
    + assert (NK : In (nth k l 0%nat) (firstn (S k) l)) by (rewrite <- (nth_first l (S k) k) by lia; apply nth_In; rewrite firstn_length; lia).
      assert (FQ : In (nth k l 0%nat) (f q)) by (destruct (LT (nth k l 0%nat)) as [LM MQ]; [apply nth_In; lia|]; rewrite <- MQ; apply (iv_live _ _ I _ c LM C)).
      intros [<-|IN]; [exists (nth k l 0%nat); rewrite MM; auto|]. apply SV in IN. destruct IN as (m & A1 & A2 & A3). exists m. rewrite MM. split; auto.
      apply (In_nth _ _ 0%nat) in A1. destruct A1 as (n & LN & EN). rewrite firstn_length in LN. rewrite nth_first in EN by lia. rewrite <- EN. rewrite <- (nth_first l (S k) n) by lia. apply nth_In. rewrite firstn_length. lia.
    + rewrite MM. intros (m & A1 & A2 & A3). apply (In_nth _ _ 0%nat) in A1. destruct A1 as (n & LN & EN). rewrite firstn_length in LN. rewrite nth_first in EN by lia.
      destruct (Nat.lt_ge_cases n ix) as [X|X].
      * right. apply SV. exists m. split; auto. rewrite <- EN. rewrite <- (nth_first l ix n X). apply nth_In. rewrite firstn_length. lia.
      * destruct (Nat.eq_dec n k) as [->|NE]; [left; congruence|]. rewrite <- EN in A3. rewrite B in A3 by lia. discriminate.
  - destruct OUT as (B & IT & FL). rewrite (none_alive h l ix B). auto.
Qed.
(** another operation *)
Definition here (h : heap) (q : nat) (s : list nat) : list nat := filter (fun c => memb c (content h q)) s.
Lemma gives_other : forall h f i q s o h' r, Hp h f -> (q < nq h)%nat -> (i < ni h)%nat -> gives h f i q s -> o <> QNext i -> qwf h o -> qexec o h = (h', r) ->
  exists f', Hp h' f' /\ gives h' f' i q (here h' q s) /\ (nq h <= nq h')%nat /\ (ni h <= ni h')%nat.
Proof.
  intros h f i q s o h' r P L LI GI NO W E. destruct (asks o) eqn:A.
  - (* iterators of others *)
    assert (X : exists h1 r1, qexec o h = (h1, r1) /\ quiet h h1 /\ Hp h1 f /\ its h1 i = its h i /\ (ni h <= ni h1)%nat).
    { destruct o; try discriminate.
      - destruct (iter_ok h f q0 P W) as (h1 & E1 & Q & P1 & NI & IT). exists h1, (Rok (Some (ni h))). split; auto. split; auto. split; auto. split; [rewrite IT, upd_diff by lia; auto|lia].
      - assert (N : i0 <> i) by (intros ->; apply NO; reflexivity). cbn [qexec]. destruct P as [I IS LG]. destruct (next_ok h f i0 I IS) as [(D & E1)|(q1 & seq & l & ix & h1 & r1 & R & E1 & Q & NI & OT & OUT)].
        + exists h, (Rok None). split; auto. split; [apply quiet_refl|]. split; auto. constructor; auto.
        + exists h1, (Rok r1). split; auto. split; auto. split; [constructor; [eapply quiet_inv; eauto|eapply next_its; eauto|eapply quiet_log; eauto]|]. split; [apply OT; auto|lia]. }
    destruct X as (h1 & r1 & E1 & Q & P1 & IT & NI). rewrite E in E1. injection E1 as -> ->. exists f. split; auto. split; [|split; [rewrite (qt_nq _ _ Q); auto|auto]].
    destruct (quiet_abs h h1 f Q (hp_inv _ _ P)) as [PN PL]. assert (CO : content h1 q = content h q) by (unfold content; destruct (PL q) as [_ ->]; auto; cbn; rewrite (qt_nq _ _ Q); auto).
    assert (S0 : forall c, In c s -> In c (content h q)).
    { intros c C. destruct GI as [[_ ->]|(sq & l & ix & _ & S)]; [destruct C|]. apply S in C. destruct C as (m & _ & B & C). apply (content_in h f q c (hp_inv _ _ P) L). eauto. }
    assert (HE : here h1 q s = s) by (apply filter_all; intros c C; rewrite CO; apply memb_iff; auto). rewrite HE.
    destruct GI as [[X ->]|(sq & l & ix & X & S)]; [left; split; congruence|right]. exists sq, l, ix. split; [congruence|]. unfold served. rewrite (qt_mm _ _ Q). exact S.
  - destruct (exec_fine o h f (hp_inv _ _ P) W A) as (h1 & f1 & r1 & E1 & (PR & TI) & _). rewrite E in E1. injection E1 as -> ->.
    pose proof (hp_prims _ _ _ _ P PR) as P1. pose proof (prims_older _ _ _ _ PR) as OL. exists f1. split; auto. split; [|split; [apply OL|rewrite (ol_ni _ _ OL); auto]].
    assert (L1 : (q < nq h1)%nat) by (pose proof (ol_nq _ _ OL); lia).
    destruct GI as [[X ->]|(sq & l & ix & X & S)]; [left; split; [rewrite (ol_its _ _ OL); auto|reflexivity]|right].
    exists sq, l, ix. split; [rewrite (ol_its _ _ OL); auto|]. pose proof (is_run _ _ (hp_its _ _ P) _ _ _ _ _ X) as OK. pose proof (hp_inv _ _ P) as I0. pose proof (hp_inv _ _ P1) as I1.
    intro c. unfold here. rewrite filter_In, memb_iff, (content_in h1 f1 q c I1 L1). split.
    + intros [A1 (m' & B1 & B2)]. apply S in A1. destruct A1 as (m & M1 & M2 & M3). exists m. split; auto.
      assert (MM : In m (f1 q) /\ m_comp (mm h1 m) = Some c).
      { destruct (iv_in_lt _ _ _ _ I0 L M2) as [LM _].
        destruct (TI q) as [T|T].
        - pose proof (T m M2) as M2'. split; auto. destruct (iv_comp _ _ I1 q m L1 M2') as [d D]. destruct (ol_mm _ _ OL m LM) as (_ & [Y|Y]); congruence.
        - pose proof (T m' B1) as B1'. destruct (iv_in_lt _ _ _ _ I0 L B1') as [LM' _]. assert (m' = m); [|subst; auto].
          apply (iv_uniq h f c q m' m I0 L B1' M2); auto. destruct (ol_mm _ _ OL m' LM') as (_ & [Y|Y]); congruence. }
      auto.
    + intros (m & M1 & M2 & M3). split; [|eauto]. apply S. exists m. split; auto. destruct (io_lt _ _ _ _ _ _ OK m (in_first _ _ _ _ M1)) as [LM MQ].
      destruct (ol_mm _ _ OL m LM) as (_ & [Y|Y]); [|congruence]. rewrite Y in M3. split; auto. rewrite <- MQ. apply (iv_live _ _ I0 m c LM M3).
Qed.

(** *** reading *)
Lemma at_comp : forall h f q a m b, Inv h f -> (q < nq h)%nat -> f q = a ++ m :: b -> m_comp (mm h m) = nth_error (content h q) (length a).
Proof.
  intros h f q a m b I L E. unfold content. rewrite (abs_l h f q I L), names_ents, E, map_app. rewrite nth_error_app2; rewrite map_length; [|auto]. rewrite Nat.sub_diag. cbn.
  destruct (iv_comp _ _ I q m L ltac:(rewrite E; apply in_elt)) as [c C]. unfold comp_of. now rewrite C.
Qed.
Lemma content_len : forall h f q, Inv h f -> (q < nq h)%nat -> length (content h q) = length (f q).
Proof. intros h f q I L. unfold content. rewrite (abs_l h f q I L), names_ents, map_length. auto. Qed.
Lemma fst_comp : forall h f q a b, Inv h f -> (q < nq h)%nat -> f q = a ++ b -> m_comp (mm h (fst_or b (u_tail (qq h q)))) = nth_error (content h q) (length a).
Proof.
  intros h f q a b I L E. destruct b as [|m b]; cbn [fst_or]; [|eapply at_comp; eauto].
  rewrite app_nil_r in E. destruct (iv_end _ _ I q L) as (_ & _ & -> & _). symmetry. apply nth_error_None. rewrite (content_len h f q I L), E. auto.
Qed.
Lemma in_split_at : forall h f q c m, Inv h f -> member c q h = Some m -> exists a b, f q = a ++ m :: b /\ m_comp (mm h m) = Some c /\ (q < nq h)%nat.
Proof. intros h f q c m I M. apply (iv_mb _ _ I) in M. destruct M as (L & A & B). apply in_split in A. destruct A as (a & b & A). eauto. Qed.
Lemma pos_content : forall h f q a m b c, Inv h f -> (q < nq h)%nat -> f q = a ++ m :: b -> m_comp (mm h m) = Some c -> pos_of c (p_l (abs h) q) = length a.
Proof. intros h f q a m b c I L E C. rewrite (abs_l h f q I L). eapply pos_ok; eauto. Qed.
Lemma succ_ok : forall h f q c, Inv h f -> (q < nq h)%nat ->
  q_successor c q h = if is_in c (p_l (abs h) q) then Rok (nth_error (content h q) (S (pos_of c (p_l (abs h) q)))) else Rer EValue.
Proof.
  intros h f q c I L. unfold q_successor. rewrite (abs_l h f q I L) at 1. rewrite (in_view h f q c I L). destruct (member c q h) as [m|] eqn:M; auto.
  destruct (in_split_at h f q c m I M) as (a & b & E & C & _). rewrite (sc_in h f q a m b I L E). cbn [rbind]. rewrite (pos_content h f q a m b c I L E C). f_equal.
  rewrite (fst_comp h f q (a ++ [m]) b I L) by (rewrite E, <- app_assoc; reflexivity). rewrite app_length. cbn. rewrite Nat.add_comm. reflexivity.
Qed.
Lemma pred_ok : forall h f q c, Inv h f -> (q < nq h)%nat ->
  q_predecessor c q h = if is_in c (p_l (abs h) q) then Rok (match pos_of c (p_l (abs h) q) with O => None | S k => nth_error (content h q) k end) else Rer EValue.
Proof.
  intros h f q c I L. unfold q_predecessor. rewrite (abs_l h f q I L) at 1. rewrite (in_view h f q c I L). destruct (member c q h) as [m|] eqn:M; auto.
  destruct (in_split_at h f q c m I M) as (a & b & E & C & _). rewrite (pd_in h f q a m b I L E). cbn [rbind]. rewrite (pos_content h f q a m b c I L E C). f_equal.
  destruct a as [|x a _] using rev_ind; [apply (iv_end _ _ I q L)|]. rewrite lst_or_app. rewrite app_length. cbn [length]. rewrite Nat.add_comm. cbn [Nat.add].
  apply (at_comp h f q a x (m :: b) I L). rewrite E, <- app_assoc. reflexivity.
Qed.
Lemma index_ok : forall h f q c, Inv h f -> (q < nq h)%nat ->
  q_index c q h = Rok (if is_in c (p_l (abs h) q) then Z.of_nat (pos_of c (p_l (abs h) q)) else (-1)%Z).
Proof.
  intros h f q c I L. unfold q_index. rewrite (abs_l h f q I L) at 1. rewrite (in_view h f q c I L). destruct (member c q h) as [m|] eqn:M; auto.
  destruct (in_split_at h f q c m I M) as (a & b & E & C & _). rewrite (sc_head h f q I L). cbn [rbind]. rewrite (pos_content h f q a m b c I L E C).
  assert (ND := iv_nodup h f q I). rewrite E in ND. apply NoDup_remove_2 in ND.
  assert (G : forall x z fuel, a = z ++ x -> (length x < fuel)%nat -> index_from fuel m (fst_or (x ++ m :: b) (u_tail (qq h q))) (Z.of_nat (length z)) h = Rok (Z.of_nat (length a))).
  { induction x as [|y x IH]; intros z fuel EA F; (destruct fuel as [|fuel]; [lia|]); cbn [app fst_or index_from].
    - rewrite Nat.eqb_refl, EA, app_nil_r. auto.
    - destruct (Nat.eqb_spec y m) as [->|N]; [exfalso; apply ND; rewrite EA; apply in_or_app; left; apply in_elt|].
      rewrite (sc_in h f q z y (x ++ m :: b) I L) by (rewrite E, EA, <- app_assoc; reflexivity). cbn [rbind].
      replace (Z.of_nat (length z) + 1)%Z with (Z.of_nat (length (z ++ [y]))) by (rewrite app_length; cbn; lia).
      apply IH; [rewrite EA, <- app_assoc; reflexivity|cbn in F; lia]. }
  rewrite E. apply (G a [] (S (nm h)) eq_refl). pose proof (iv_length h f q I L) as IL. rewrite E, app_length in IL. cbn in IL. lia.
Qed.

(** range(a, b, step) of Python *)
Definition range (a b step : Z) : list Z :=
  let n := if (0 <? step)%Z then ((b - a + step - 1) / step)%Z else ((a - b - step - 1) / - step)%Z in
  map (fun k => a + Z.of_nat k * step)%Z (seq 0 (Z.to_nat n)).
Lemma ZN : forall z, (z < 1)%Z -> Z.to_nat z = 0%nat.
Proof. intros. lia. Qed.
Lemma range_nil : forall a b step, step <> 0%Z -> (if (0 <? step)%Z then b <= a else a <= b)%Z -> range a b step = [].
Proof.
  intros a b step NZ H. unfold range. destruct (Z.ltb_spec 0 step) as [P|P].
  - rewrite ZN; [reflexivity|]. apply Z.div_lt_upper_bound; lia.
  - rewrite ZN; [reflexivity|]. apply Z.div_lt_upper_bound; lia.
Qed.
Lemma range_cons : forall a b step, step <> 0%Z -> (if (0 <? step)%Z then a < b else b < a)%Z -> range a b step = a :: range (a + step) b step.
Proof.
  intros a b step NZ H. unfold range.
  assert (G : forall n x, (0 <= n)%Z -> map (fun k => x + Z.of_nat k * step)%Z (seq 0 (Z.to_nat (n + 1))) = x :: map (fun k => x + step + Z.of_nat k * step)%Z (seq 0 (Z.to_nat n))).
  { intros n x N. replace (Z.to_nat (n + 1)) with (S (Z.to_nat n)) by lia. cbn [seq map]. f_equal; [lia|]. rewrite <- seq_shift, map_map. apply map_ext. intro k. lia. }
  destruct (Z.ltb_spec 0 step) as [P|P].
  - replace (b - a + step - 1)%Z with ((b - (a + step) + step - 1) + 1 * step)%Z by lia. rewrite Z.div_add by lia. apply G. apply Z.div_pos; lia.
  - replace (a - b - step - 1)%Z with ((a + step - b - step - 1) + 1 * - step)%Z by lia. rewrite Z.div_add by lia. apply G. apply Z.div_pos; lia.
Qed.
Lemma in_range : forall a b step i, step <> 0%Z -> In i (range a b step) -> (if (0 <? step)%Z then a <= i < b else b < i <= a)%Z.
Proof.
  intros a b step i NZ. unfold range. destruct (Z.ltb_spec 0 step) as [P|P]; rewrite in_map_iff; intros (k & <- & K); apply in_seq in K.
  - split; [nia|]. assert (K' : (Z.of_nat k + 1 <= (b - a + step - 1) / step)%Z) by lia. assert ((b - a + step - 1) / step * step <= b - a + step - 1)%Z by (rewrite Z.mul_comm; apply Z.mul_div_le; lia). nia.
  - split; [|nia]. assert (K' : (Z.of_nat k + 1 <= (a - b - step - 1) / - step)%Z) by lia. assert ((a - b - step - 1) / - step * - step <= a - b - step - 1)%Z by (rewrite Z.mul_comm; apply Z.mul_div_le; lia). nia.
Qed.
Definition item (h : heap) (q : nat) (i : Z) : option nat := nth_error (content h q) (Z.to_nat i).
Lemma slice_up_ok : forall h f q stop step, Inv h f -> (q < nq h)%nat -> (0 < step)%Z -> (stop <= Z.of_nat (length (f q)))%Z -> forall b a fuel target, f q = a ++ b -> (length b < fuel)%nat -> (Z.of_nat (length a) <= target)%Z ->
  slice_up fuel (u_tail (qq h q)) stop step target (Z.of_nat (length a)) (fst_or b (u_tail (qq h q))) h = Rok (map (item h q) (range target stop step)).
Proof.
  intros h f q stop step I L P ST. assert (PB : (0 <? step)%Z = true) by (apply Z.ltb_lt; auto). induction b as [|m b IH]; intros a fuel target E F T; (destruct fuel as [|fuel]; [lia|]); cbn [fst_or slice_up].
  - rewrite Nat.eqb_refl. rewrite app_nil_r in E. rewrite range_nil; [reflexivity|lia|]. rewrite PB. rewrite E in ST. lia.
  - destruct (iv_head_notin h f q I L) as (_ & NT & _).
    destruct (Nat.eqb_spec m (u_tail (qq h q))) as [C|_]; [exfalso; apply NT; rewrite <- C, E; apply in_elt|].
    destruct (Z.leb_spec stop target) as [S|S]; [rewrite range_nil; [reflexivity|lia|rewrite PB; lia]|].
    rewrite (sc_in h f q a m b I L E). cbn [rbind].
    assert (LA : Z.of_nat (length (a ++ [m])) = (Z.of_nat (length a) + 1)%Z) by (rewrite app_length; cbn; lia).
    assert (E' : f q = (a ++ [m]) ++ b) by (rewrite E, <- app_assoc; reflexivity).
    destruct (Z.eqb_spec target (Z.of_nat (length a))) as [->|N].
    + rewrite <- LA. rewrite (IH (a ++ [m])); auto; [|cbn in F; lia|lia]. cbn [rbind]. rewrite (range_cons (Z.of_nat (length a)) stop step); [|lia|rewrite PB; auto]. cbn [map]. f_equal. f_equal.
      unfold item. rewrite Nat2Z.id. eapply at_comp; eauto.
    + rewrite <- LA. apply IH; auto; [cbn in F; lia|lia].
Qed.
Lemma slice_down_ok : forall h f q stop step, Inv h f -> (q < nq h)%nat -> (step < 0)%Z -> (-1 <= stop)%Z -> forall a b fuel target, f q = a ++ b -> (length a < fuel)%nat -> (target <= Z.of_nat (length a) - 1)%Z ->
  slice_down fuel (u_head (qq h q)) stop step target (Z.of_nat (length a) - 1) (lst_or a (u_head (qq h q))) h = Rok (map (item h q) (range target stop step)).
Proof.
  intros h f q stop step I L P ST. assert (PB : (0 <? step)%Z = false) by (apply Z.ltb_ge; lia). induction a as [|m a IH] using rev_ind; intros b fuel target E F T; (destruct fuel as [|fuel]; [lia|]); cbn [slice_down].
  - cbn. rewrite Nat.eqb_refl. cbn in T. rewrite range_nil; [reflexivity|lia|]. rewrite PB. lia.
  - rewrite lst_or_app. destruct (iv_head_notin h f q I L) as (NH & _ & _).
    rewrite <- app_assoc in E. cbn in E.
    destruct (Nat.eqb_spec m (u_head (qq h q))) as [C|_]; [exfalso; apply NH; rewrite <- C, E; apply in_elt|].
    destruct (Z.leb_spec target stop) as [S|S]; [rewrite range_nil; [reflexivity|lia|rewrite PB; lia]|].
    rewrite (pd_in h f q a m b I L E). cbn [rbind]. rewrite app_length in *. cbn [length] in *.
    replace (Z.of_nat (length a + 1) - 1)%Z with (Z.of_nat (length a)) in * by lia.
    destruct (Z.eqb_spec target (Z.of_nat (length a))) as [->|N].
    + rewrite (IH (m :: b)); auto; [|lia|lia]. cbn [rbind]. rewrite (range_cons (Z.of_nat (length a)) stop step); [|lia|rewrite PB; auto]. cbn [map]. f_equal. f_equal.
      unfold item. rewrite Nat2Z.id. eapply at_comp; eauto.
    + apply (IH (m :: b)); auto; lia.
Qed.
Lemma slice_ok : forall h f q start stop step, Inv h f -> (q < nq h)%nat -> step <> 0%Z ->
  let '(a, b) := indices start stop step (Z.of_nat (length (content h q))) in
  q_slice q start stop step h = Rok (map (item h q) (range a b step)) /\ (forall i, In i (range a b step) -> (0 <= i < Z.of_nat (length (content h q)))%Z).
Proof.
  intros h f q start stop step I L NZ. rewrite (content_len h f q I L). unfold q_slice. rewrite (iv_len _ _ I q L). destruct (Z.eqb_spec step 0) as [|_]; [tauto|].
  set (n := Z.of_nat (length (f q))). assert (N0 : (0 <= n)%Z) by lia.
  unfold indices. pose proof (iv_length h f q I L) as IL. destruct (Z.ltb_spec 0 step) as [P|P].
  - assert (A : (0 <= clip 0 n n start 0)%Z) by (unfold clip; destruct start as [v|]; [destruct (Z.ltb_spec v 0); lia|lia]).
    assert (B : (clip 0 n n stop n <= n)%Z) by (unfold clip; destruct stop as [v|]; [destruct (Z.ltb_spec v 0); lia|lia]).
    rewrite (sc_head h f q I L). cbn [rbind]. split.
    + apply (slice_up_ok h f q _ step I L P B (f q) []); [reflexivity|lia|cbn; lia].
    + intros i Hi. apply in_range in Hi; auto. destruct (Z.ltb_spec 0 step); lia.
  - assert (A : (clip (-1) (n - 1) n start (n - 1) <= n - 1)%Z) by (unfold clip; destruct start as [v|]; [destruct (Z.ltb_spec v 0); lia|lia]).
    assert (B : (-1 <= clip (-1) (n - 1) n stop (-1))%Z) by (unfold clip; destruct stop as [v|]; [destruct (Z.ltb_spec v 0); lia|lia]).
    rewrite (pd_tail h f q I L). cbn [rbind]. split.
    + apply (slice_down_ok h f q _ step I L ltac:(lia) B (f q) []); [rewrite app_nil_r; reflexivity|lia|auto].
    + intros i Hi. apply in_range in Hi; auto. destruct (Z.ltb_spec 0 step); lia.
Qed.
