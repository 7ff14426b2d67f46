(** Properties C31 – C36: queues. The meaning of the operations on plain lists is in QSpec ([on_queue], [spec]). *)
From Coq Require Import QArith Lqa List Bool Arith ZArith Lia.
From Verif Require Import Base Kernel QHeap QSpec QHeapP QHeapR QHeapI QHeapS.
Import ListNotations.
Open Scope Q_scope.

(** ** a program to show that the hypotheses can be met *)
Fixpoint run_all (l : list qop) (h : heap) : heap := match l with [] => h | o :: t => run_all t (fst (qexec o h)) end.
Fixpoint all_wf (l : list qop) (h : heap) : Prop := match l with [] => True | o :: t => qwf h o /\ all_wf t (fst (qexec o h)) end.
Lemma run_reach : forall l h, qreach h -> all_wf l h -> qreach (run_all l h).
Proof.
  induction l as [|o l IH]; cbn; auto. intros h R [W A]. apply IH; auto. destruct (qexec o h) as [h1 r] eqn:E. eapply qr_step; eauto.
Qed.
(** two queues; 10, 11, 12 enter queue 0 sorted, 11 goes to the front; 12 and 13 enter queue 1; time passes; 10 leaves *)
Definition prog : list qop :=
  [QNew PInf; QNew (Fin 2); QEnter 10 0 (Some (Fin 5)); QTick 1; QEnter 11 0 (Some (Fin 3)); QEnter 12 0 (Some (Fin 5)); QTick 2; QEnter 12 1 None; QEnter 13 1 None; QEnter 14 1 None;
   QPrio 12 0 (Fin 4); QTick 1; QLeave 10 0].
Definition h1 : heap := run_all prog (start 0).
Lemma h1_reach : qreach h1.
Proof. apply run_reach; [constructor|]. cbn [all_wf prog]. repeat split; vm_compute; try (intro; discriminate); try reflexivity; auto with arith. Qed.
Example h1_lists : p_l (abs h1) 0%nat = [(11, Fin 3); (12, Fin 4)]%nat /\ p_l (abs h1) 1%nat = [(12, Fin 0); (13, Fin 0)]%nat.
Proof. split; vm_compute; reflexivity. Qed.

(** ** C31: a queue behaves as a list *)
(** every operation does to all queues what [spec] says about plain lists, and has the same result *)
Theorem C31_operations : forall h o h' r, qreach h -> qwf h o -> asks o = false -> qexec o h = (h', r) ->
  same (abs h') (fst (spec o (abs h))) /\ r = snd (spec o (abs h)).
Proof.
  intros h o h' r R W A E. destruct (reach_hp h R) as [f P]. destruct (exec_fine o h f (hp_inv _ _ P) W A) as (h2 & f2 & r2 & E2 & _ & S & Q).
  rewrite E in E2. injection E2 as -> ->. auto.
Qed.
(** making and using iterators changes no queue and never fails *)
Theorem C31_iterating_changes_nothing : forall h o h' r, qreach h -> qwf h o -> asks o = true -> qexec o h = (h', r) ->
  same (abs h') (abs h) /\ exists x, r = Rok x.
Proof.
  intros h o h' r R W A E. destruct (reach_hp h R) as [f P]. destruct o; try discriminate.
  - destruct (iter_ok h f q P W) as (h2 & E2 & Q & _). rewrite E in E2. injection E2 as -> ->. split; [eapply quiet_abs; eauto; apply P|eauto].
  - destruct (next_hp h f i P) as (h2 & r2 & E2 & Q & _). rewrite E in E2. injection E2 as -> ->. split; [eapply quiet_abs; eauto; apply P|eauto].
Qed.
(** all ways of reading a queue agree with that one list *)
Record reads (h : heap) (q : nat) (L : list nat) : Prop := {
  rd_once : NoDup L;
  rd_len : u_len (qq h q) = Z.of_nat (length L);
  rd_for : comps q h = Rok L;
  rd_back : rbind (members_back q h) (fun l => Rok (map (comp_of h) l)) = Rok (rev L);
  rd_head : q_head q h = Rok (hd_error L);
  rd_tail : q_tail q h = Rok (hd_error (rev L));
  rd_in : forall c, q_contains c q h = true <-> In c L;
  rd_get : forall i, (0 <= i < Z.of_nat (length L))%Z -> q_get q i h = Rok (nth_error L (Z.to_nat i)) /\ q_get q (i - Z.of_nat (length L)) h = Rok (nth_error L (Z.to_nat i));
  rd_out : forall i, (i < - Z.of_nat (length L) \/ Z.of_nat (length L) <= i)%Z -> q_get q i h = Rer EIndex;
  rd_nth : forall c k, nth_error L k = Some c -> q_index c q h = Rok (Z.of_nat k) /\ q_successor c q h = Rok (nth_error L (S k)) /\
             q_predecessor c q h = Rok (match k with O => None | S j => nth_error L j end);
  rd_none : forall c, ~ In c L -> q_index c q h = Rok (-1)%Z /\ q_successor c q h = Rer EValue /\ q_predecessor c q h = Rer EValue;
  rd_slice : forall start stop step, step <> 0%Z -> let '(a, b) := indices start stop step (Z.of_nat (length L)) in
             q_slice q start stop step h = Rok (map (fun i => nth_error L (Z.to_nat i)) (range a b step)) /\ forall i, In i (range a b step) -> (0 <= i < Z.of_nat (length L))%Z }.
Lemma last_rev : forall l, last_error l = hd_error (rev l).
Proof. intro l. destruct l as [|x l _] using rev_ind; [reflexivity|]. unfold last_error. rewrite map_app. cbn [map]. rewrite last_last, rev_app_distr. reflexivity. Qed.
Lemma pos_nth : forall L c k, NoDup (names L) -> nth_error (names L) k = Some c -> pos_of c L = k /\ is_in c L = true.
Proof.
  induction L as [|e L IH]; intros c k N E; [destruct k; discriminate|]. cbn in N. inversion N; subst. destruct k as [|k]; cbn in E.
  - injection E as <-. unfold is_in, names. cbn. rewrite Nat.eqb_refl. split; reflexivity.
  - destruct (IH c k H2 E) as [A B]. cbn. assert (c <> fst e) by (intros ->; apply H1; eapply nth_error_In; eauto).
    destruct (Nat.eqb_spec c (fst e)); [tauto|]. split; auto.
Qed.
Theorem C31_reading : forall h q, qreach h -> (q < nq h)%nat -> reads h q (names (p_l (abs h) q)).
Proof.
  intros h q R L. destruct (reach_hp h R) as [f P]. pose proof (hp_inv _ _ P) as I. change (names (p_l (abs h) q)) with (content h q).
  assert (CN : content h q = names (ents h (f q))) by (unfold content; rewrite (abs_l h f q I L); auto).
  assert (LN := content_len h f q I L). assert (ND : NoDup (content h q)) by (rewrite CN; eapply nodup_view; eauto).
  assert (PA : forall c k, nth_error (content h q) k = Some c -> pos_of c (p_l (abs h) q) = k /\ is_in c (p_l (abs h) q) = true) by (intros c k; apply pos_nth; auto).
  constructor.
  - auto.
  - rewrite LN. apply (iv_len _ _ I q L).
  - unfold comps. rewrite (members_ok h f q I L). cbn [rbind]. rewrite CN, names_ents. auto.
  - rewrite (members_back_ok h f q I L). cbn [rbind]. rewrite CN, names_ents, map_rev. auto.
  - rewrite (head_ok h f q I L), CN. auto.
  - rewrite (tail_ok h f q I L), CN, last_rev. auto.
  - intro c. unfold q_contains. rewrite CN, <- is_in_iff, (in_view h f q c I L). tauto.
  - intros i B. rewrite !(get_ok h f q _ I L). unfold nth_z. rewrite <- CN, len_ents, <- LN in *.
    assert (S0 : exists c, nth_error (content h q) (Z.to_nat i) = Some c) by (destruct (nth_error (content h q) (Z.to_nat i)) eqn:E; [eauto|apply nth_error_None in E; lia]). destruct S0 as [c S0].
    destruct (Z.ltb_spec i 0); [lia|]. destruct (Z.ltb_spec i 0); [lia|]. destruct (Z.ltb_spec (i - Z.of_nat (length (content h q))) 0); [|lia].
    replace (i - Z.of_nat (length (content h q)) + Z.of_nat (length (content h q)))%Z with i by lia. destruct (Z.ltb_spec i 0); [lia|]. rewrite S0. auto.
  - intros i B. rewrite (get_ok h f q _ I L). unfold nth_z. rewrite <- CN, len_ents, <- LN.
    destruct (Z.ltb_spec i 0) as [X|X].
    + destruct (Z.ltb_spec (i + Z.of_nat (length (content h q))) 0); auto. lia.
    + destruct (Z.ltb_spec i 0); auto. destruct (nth_error (content h q) (Z.to_nat i)) eqn:E; auto. assert (nth_error (content h q) (Z.to_nat i) = None) by (apply nth_error_None; lia). congruence.
  - intros c k E. destruct (PA c k E) as [PO IN]. rewrite (index_ok h f q c I L), (succ_ok h f q c I L), (pred_ok h f q c I L), IN, PO. auto.
  - intros c N. assert (IN : is_in c (p_l (abs h) q) = false) by (apply is_in_false; auto). rewrite (index_ok h f q c I L), (succ_ok h f q c I L), (pred_ok h f q c I L), IN. auto.
  - intros start stop step NZ. pose proof (slice_ok h f q start stop step I L NZ) as S. destruct (indices start stop step (Z.of_nat (length (content h q)))) as [a b]. exact S.
Qed.
(** the only exceptions are those documented: no corrupted link is ever followed *)
Theorem C31_exceptions : forall h o h' e, qreach h -> qwf h o -> qexec o h = (h', Rer e) -> e = EValue \/ e = EIndex \/ e = EFull.
Proof.
  intros h o h' e R W E. destruct (asks o) eqn:A; [destruct (C31_iterating_changes_nothing h o h' _ R W A E) as [_ [x X]]; discriminate|].
  destruct (C31_operations h o h' _ R W A E) as [_ X]. symmetry in X. revert X. generalize (abs h). intros P X.
  assert (AD : forall cap c k p L e, snd (add cap c k p L) = Rer e -> e = EValue \/ e = EIndex \/ e = EFull).
  { intros cap c k p L e0. unfold add. destruct (is_in c L); [intro Y; injection Y; auto|]. destruct (is_full cap L); intro Y; [injection Y; auto|discriminate]. }
  assert (AA : forall cap l L e, snd (add_all cap l L) = Rer e -> e = EValue \/ e = EIndex \/ e = EFull).
  { intros cap. induction l as [|c l IH]; intros L e0; cbn; [discriminate|]. destruct (is_in c L); [apply IH|]. destruct (is_full cap L); [intro Y; injection Y; auto|apply IH]. }
  assert (FI : forall cap L acc e, snd (fits_from cap L acc) = Rer e -> e = EFull).
  { intros cap. induction L as [|x L IH]; intros acc e0; cbn; [discriminate|]. destruct (is_full cap acc); [intro Y; injection Y; auto|apply IH]. }
  assert (ON : forall q, queue_of o = Some q -> snd (on_queue o (p_cap P q) (p_l P q)) = Rer e -> e = EValue \/ e = EIndex \/ e = EFull).
  { intros q Q. destruct o; cbn [queue_of] in Q; try discriminate; cbn [on_queue]; intro Y;
      repeat match type of Y with context [match ?b with _ => _ end] => match b with add _ _ _ _ _ => fail 1 | _ => destruct b; cbn [snd] in Y end end; try discriminate; try (injection Y; auto; fail); eauto;
      unfold del in Y; destruct (is_in c (p_l P q)); cbn in Y; try discriminate; injection Y; auto. }
  unfold spec in X. destruct (queue_of o) as [q|] eqn:Q.
  - apply (ON q eq_refl). destruct (on_queue o (p_cap P q) (p_l P q)). exact X.
  - destruct o; cbn in Q; try discriminate; cbn [snd] in X; try discriminate.
    + destruct cap; [|discriminate]. unfold fits_n in X. pose proof (FI (p_cap P a) (p_l P a) [] e) as F. destruct (fits_from (p_cap P a) (p_l P a) []) as [L [x|e']]; cbn in *; [discriminate|]. injection X as <-. auto.
    + destruct cap; [|discriminate]. unfold fits_n in X. pose proof (FI (p_cap P a) (p_l P a) [] e) as F. destruct (fits_from (p_cap P a) (p_l P a) []) as [L [x|e']]; cbn in *; [discriminate|]. injection X as <-. auto.
Qed.
Example C31_case : exists o h' r, qreach h1 /\ qwf h1 o /\ asks o = false /\ qexec o h1 = (h', r) /\ p_l (abs h') 0%nat = [(11, Fin 3); (14, Fin 3); (12, Fin 4)]%nat.
Proof. exists (QEnterBehind 14 0 11). eexists _, _. split; [apply h1_reach|]. split; [vm_compute; auto|]. split; [reflexivity|]. split; [vm_compute; reflexivity|]. vm_compute. reflexivity. Qed.
Example C31_slice : q_slice 0 None None (-1) h1 = Rok [Some 12; Some 11]%nat.
Proof. vm_compute. reflexivity. Qed.
(** the lists of the kernel model (Kernel.v, where waiting queues are plain lists) change in the same way *)
Theorem C31_kernel_queues : forall c (L : list (nat * xq)), inq c L = is_in c L /\ adel c L = drop c L /\
  ins_at c PTail L = put (length L) (c, prio_last L) L /\ ins_at c PHead L = put 0 (c, prio_nth 0 L) L /\
  (forall p, ins_at c (PSorted p) L = put (place p L) (c, p) L) /\
  (forall x, is_in x L = true -> ins_at c (PBefore x) L = put (pos_of x L) (c, prio_nth (pos_of x L) L) L /\ ins_at c (PBehind x) L = put (S (pos_of x L)) (c, prio_nth (pos_of x L) L) L).
Proof.
  intros c L. split; [reflexivity|]. split.
  { unfold adel, drop. apply filter_ext. intros [x p]. cbn. rewrite Nat.eqb_sym. auto. }
  split; [unfold put; cbn; rewrite firstn_all, skipn_all2 by lia; reflexivity|].
  split; [unfold put, prio_nth; cbn; destruct L as [|[x p] L]; reflexivity|]. split.
  - intro p. cbn [ins_at]. unfold ins_sorted, place. destruct L as [|y L]; [reflexivity|]. destruct (xltb p (snd y)); [reflexivity|].
    assert (G : forall l, ins_tail c p l = put (behind_le p l) (c, p) l).
    { induction l as [|z l IH]; [reflexivity|]. cbn [ins_tail behind_le].
      assert (AL : forall l, forallb (fun z => xltb p (snd z)) l = true <-> behind_le p l = 0%nat).
      { induction l0 as [|w l0 IH0]; [cbn; tauto|]. cbn [forallb behind_le]. rewrite andb_true_iff, IH0. destruct (behind_le p l0) as [|k].
        - destruct (xleb (snd w) p) eqn:X.
          + split; [|discriminate]. intros [Y _]. apply xltb_iff in Y. apply xleb_iff in X. exfalso. eapply xlt_not_le; eauto.
          + split; auto. intros _. split; auto. apply xleb_false_iff in X. apply xltb_iff. auto.
        - split; [intros [_ Y]; discriminate|discriminate]. }
      destruct (forallb (fun z0 => xltb p (snd z0)) (z :: l)) eqn:F.
      - apply AL in F. cbn [behind_le] in F. rewrite F. reflexivity.
      - assert (F' : behind_le p (z :: l) <> 0%nat) by (intro X; apply AL in X; congruence). rewrite IH. cbn [behind_le] in F'. unfold put.
        destruct (behind_le p l) as [|k] eqn:B; [destruct (xleb (snd z) p); [reflexivity|tauto]|]. reflexivity. }
    apply G.
  - intros x IN. cbn [ins_at]. unfold put, prio_nth. induction L as [|[y p] L IH]; [discriminate|]. cbn [ins_before ins_behind pos_of fst].
    destruct (Nat.eqb_spec x y) as [->|N]; [split; reflexivity|]. destruct IH as [A B]; [unfold is_in in *; cbn in IN; destruct (Nat.eqb_spec x y); [tauto|auto]|]. cbn [firstn skipn map nth]. rewrite A, B. split; reflexivity.
Qed.
Example C31_kernel_case : ins_at 14 (PSorted (Fin 3)) [(11, Fin 3); (12, Fin 4)]%nat = [(11, Fin 3); (14, Fin 3); (12, Fin 4)]%nat.
Proof. reflexivity. Qed.
Print Assumptions C31_operations.
Print Assumptions C31_iterating_changes_nothing.
Print Assumptions C31_reading.
Print Assumptions C31_exceptions.
Print Assumptions C31_kernel_queues.

(** ** C32: queues stay sorted on priority *)
Definition in_order (L : list entry) : Prop := forall i j p p', (i < j)%nat -> nth_error (map snd L) i = Some p -> nth_error (map snd L) j = Some p' -> xle p p'.
Fixpoint sorted (L : list entry) : Prop := match L with [] => True | e :: t => (forall x, In x t -> xle (snd e) (snd x)) /\ sorted t end.
Lemma sorted_in_order : forall L, sorted L <-> in_order L.
Proof.
  induction L as [|e L IH]; cbn; split.
  - intros _ i j p p' _ E. destruct i; discriminate.
  - auto.
  - intros [A B] i j p p' IJ E1 E2. destruct j as [|j]; [lia|]. destruct i as [|i]; cbn in E1, E2.
    + injection E1 as <-. apply nth_error_In in E2. apply in_map_iff in E2. destruct E2 as (x & <- & X). auto.
    + apply IH in B. apply (B i j); auto. lia.
  - intro O. split.
    + intros x X. apply (in_map snd) in X. apply In_nth_error in X. destruct X as [k X]. apply (O 0%nat (S k)); auto. lia.
    + apply IH. intros i j p p' IJ E1 E2. apply (O (S i) (S j)); auto. lia.
Qed.
Lemma sorted_app : forall A B, sorted (A ++ B) <-> sorted A /\ sorted B /\ (forall x y, In x A -> In y B -> xle (snd x) (snd y)).
Proof.
  induction A as [|e A IH]; cbn; intro B.
  - split; [intro; split; auto; split; auto; intros x y []|tauto].
  - rewrite IH. split.
    + intros [P (S1 & S2 & S3)]. split; [split; auto; intros x X; apply P; apply in_or_app; auto|]. split; auto. intros x y [<-|X] Y; auto. apply P. apply in_or_app. auto.
    + intros ((P & S1) & S2 & S3). split; [|split; auto]. intros x X. apply in_app_or in X. destruct X; auto.
Qed.
Lemma sorted_filter : forall g L, sorted L -> sorted (filter g L).
Proof. induction L as [|e L IH]; cbn; auto. intros [A B]. destruct (g e); cbn; auto. split; auto. intros x X. apply filter_In in X. apply A. tauto. Qed.
Lemma sorted_zero : forall L, sorted (zero L).
Proof. induction L as [|e L IH]; cbn [zero map sorted]; auto. split; auto. intros x X. apply in_map_iff in X. destruct X as (y & <- & _). apply xle_refl. Qed.
Lemma sorted_all_zero : forall L, (forall x, In x L -> snd x = Fin 0) -> sorted L.
Proof. induction L as [|e L IH]; cbn; auto. intro Z. split; [|apply IH; auto]. intros x X. rewrite (Z e), (Z x); auto. apply xle_refl. Qed.
Lemma sorted_put : forall k c p L, sorted L -> (forall x, In x (firstn k L) -> xle (snd x) p) -> (forall x, In x (skipn k L) -> xle p (snd x)) -> sorted (put k (c, p) L).
Proof.
  intros k c p L S A B. unfold put. rewrite <- (firstn_skipn k L) in S. apply sorted_app in S. destruct S as (S1 & S2 & S3). apply sorted_app. split; auto. split; [cbn; auto|].
  intros x y X [<-|Y]; auto.
Qed.
Lemma sorted_at : forall L k e, sorted L -> nth_error L k = Some e -> (forall x, In x (firstn k L) -> xle (snd x) (snd e)) /\ (forall x, In x (skipn k L) -> xle (snd e) (snd x)).
Proof.
  induction L as [|y L IH]; intros k e S E; [destruct k; discriminate|]. destruct S as [P S]. destruct k as [|k]; cbn in *.
  - injection E as <-. split; [intros x []|]. intros x [<-|X]; auto. apply xle_refl.
  - destruct (IH k e S E) as [A B]. split; auto. intros x [<-|X]; auto. apply P. eapply nth_error_In; eauto.
Qed.
Lemma behind_ok : forall p L, sorted L -> (forall x, In x (firstn (behind_le p L) L) -> xle (snd x) p) /\ (forall x, In x (skipn (behind_le p L) L) -> xlt p (snd x)).
Proof.
  intros p. induction L as [|e L IH]; [cbn; split; intros x []|]. intros [P S]. destruct (IH S) as [A B]. cbn [behind_le]. destruct (behind_le p L) as [|k] eqn:K.
  - destruct (xleb (snd e) p) eqn:X.
    + apply xleb_iff in X. cbn. split; [intros x [<-|[]]; auto|]. auto.
    + apply xleb_false_iff in X. cbn. split; [intros x []|]. intros x [<-|Y]; auto.
  - cbn [firstn skipn]. split; auto. intros x [<-|Y]; auto. destruct L as [|z L]; [discriminate|]. apply (xle_trans _ (snd z)); [apply P; left; auto|apply A; left; reflexivity].
Qed.
Lemma place_ok : forall p L, sorted L -> (forall x, In x (firstn (place p L) L) -> xle (snd x) p) /\ (forall x, In x (skipn (place p L) L) -> xlt p (snd x)).
Proof.
  intros p L S. unfold place. destruct L as [|e L]; [cbn; split; intros x []|]. destruct (xltb p (snd e)) eqn:X; [|apply behind_ok; auto].
  apply xltb_iff in X. cbn. split; [intros x []|]. intros x [<-|Y]; auto. destruct S as [P _]. eapply xlt_le_trans; eauto.
Qed.
Lemma before_ok : forall p L, sorted L -> (forall x, In x (firstn (before_gt p L) L) -> xle (snd x) p) /\ (forall x, In x (skipn (before_gt p L) L) -> xlt p (snd x)).
Proof.
  intros p. induction L as [|e L IH]; [cbn; split; intros x []|]. intros [P S]. destruct (IH S) as [A B]. cbn [before_gt]. destruct (xleb (snd e) p) eqn:X.
  - apply xleb_iff in X. cbn. split; [intros x [<-|Y]; auto|auto].
  - apply xleb_false_iff in X. cbn. split; [intros x []|]. intros x [<-|Y]; auto. eapply xlt_le_trans; eauto.
Qed.
Lemma sorted_add : forall cap c k p L, sorted L -> (forall x, In x (firstn k L) -> xle (snd x) p) -> (forall x, In x (skipn k L) -> xle p (snd x)) -> sorted (fst (add cap c k p L)).
Proof. intros. unfold add. destruct (is_in c L); auto. destruct (is_full cap L); auto. apply sorted_put; auto. Qed.
Lemma prio_last_ok : forall L, sorted L -> forall x, In x L -> xle (snd x) (prio_last L).
Proof.
  intro L. unfold prio_last. destruct L as [|e L _] using rev_ind; [intros _ x []|]. intros S x X. rewrite map_app. cbn. rewrite last_last. apply sorted_app in S. destruct S as (_ & _ & S).
  apply in_app_or in X. destruct X as [X|[<-|[]]]; [apply S; cbn; auto|apply xle_refl].
Qed.
Lemma prio_nth_ok : forall L k, sorted L -> (k < length L)%nat -> (forall x, In x (firstn k L) -> xle (snd x) (prio_nth k L)) /\ (forall x, In x (skipn k L) -> xle (prio_nth k L) (snd x)).
Proof.
  intros L k S K. destruct (nth_error L k) as [e|] eqn:E; [|apply nth_error_None in E; lia]. unfold prio_nth. pose proof (map_nth_error snd k L E) as M.
  rewrite (nth_error_nth _ _ (Fin 0) M). apply sorted_at; auto.
Qed.
Lemma pos_lt : forall c L, is_in c L = true -> (pos_of c L < length L)%nat.
Proof. intros c L. induction L as [|e L IH]; cbn; [discriminate|]. unfold is_in. cbn. destruct (Nat.eqb_spec c (fst e)) as [E|N]; [lia|]. cbn. intro X. apply IH in X. lia. Qed.
Lemma add_all_sorted : forall cap l L, sorted L -> sorted (fst (add_all cap l L)).
Proof.
  intros cap. induction l as [|c l IH]; intros L S; cbn; auto. destruct (is_in c L); auto. destruct (is_full cap L); auto. apply IH. apply sorted_app. split; auto. split; [cbn; split; auto; intros x []|].
  intros x y X [<-|[]]. cbn. apply prio_last_ok; auto.
Qed.
Lemma fits_sorted : forall cap L acc, sorted (acc ++ L) -> sorted (fst (fits_from cap L acc)).
Proof.
  intros cap. induction L as [|e L IH]; intros acc S; cbn; [rewrite app_nil_r in S; auto|]. destruct (is_full cap acc); [apply sorted_app in S; tauto|]. apply IH. rewrite <- app_assoc. auto.
Qed.
Lemma copied_sorted : forall (k : bool) cap L L' r, (if k then fits_n cap L else (L, Rok None)) = (L', r) -> sorted L -> sorted L'.
Proof. intros k cap L L' r E S. destruct k; [|injection E as <- _; auto]. pose proof (fits_sorted cap L [] S) as F. unfold fits_n in E. rewrite E in F. exact F. Qed.
(** Queue.insert used inside the queue; everything else is allowed *)
Definition orderly (P : plain) (o : qop) : Prop := match o with QInsert n c q => (n < Z.of_nat (length (p_l P q)))%Z | _ => True end.
Lemma on_queue_sorted : forall o cap L, sorted L -> match o with QInsert n c q => (n < Z.of_nat (length L))%Z | _ => True end -> sorted (fst (on_queue o cap L)).
Proof.
  intros o cap L S O. destruct o; cbn [on_queue]; auto.
  - destruct po as [p|]; apply sorted_add; auto.
    + apply place_ok; auto.
    + intros x X. apply xlt_le. apply (place_ok p L S); auto.
    + rewrite firstn_all. apply prio_last_ok; auto.
    + rewrite skipn_all2 by lia. intros x [].
  - apply sorted_add; auto; [intros x []|]. destruct L as [|e L]; [intros x []|]. apply (prio_nth_ok (e :: L) 0 S). cbn. lia.
  - destruct (is_in c L) eqn:C; cbn [negb andb].
    + unfold add. rewrite C. auto.
    + destruct (is_in pos L) eqn:PI; cbn [negb]; auto. apply pos_lt in PI. apply sorted_add; auto; apply (prio_nth_ok L _ S PI).
  - destruct (is_in c L) eqn:C; cbn [negb andb].
    + unfold add. rewrite C. auto.
    + destruct (is_in pos L) eqn:PI; cbn [negb]; auto. apply pos_lt in PI. destruct (nth_error L (pos_of pos L)) as [e|] eqn:E; [|apply nth_error_None in E; lia].
      assert (PE : prio_nth (pos_of pos L) L = snd e) by (unfold prio_nth; apply nth_error_nth; rewrite (map_nth_error snd _ _ E); auto). rewrite PE.
      apply nth_error_split in E. destruct E as (A & B & EL & EA). rewrite EL in S. apply sorted_app in S. destruct S as (S1 & [S2 S2'] & S3). rewrite <- EA in *.
      assert (F1 : firstn (S (length A)) L = A ++ [e]) by (rewrite EL, firstn_app, firstn_all2 by lia; replace (S (length A) - length A)%nat with 1%nat by lia; reflexivity).
      assert (F2 : skipn (S (length A)) L = B) by (rewrite EL, skipn_app, skipn_all2 by lia; replace (S (length A) - length A)%nat with 1%nat by lia; reflexivity).
      apply sorted_add; [rewrite EL; apply sorted_app; split; auto; split; [split; auto|auto]| |]; rewrite ?F1, ?F2; auto.
      intros x X. apply in_app_or in X. destruct X as [X|[<-|[]]]; [apply S3; cbn; auto|apply xle_refl].
  - destruct ((n <? 0)%Z || (Z.of_nat (length L) <? n)%Z) eqn:B; auto. apply orb_false_iff in B. destruct B as [B1 B2]. apply Z.ltb_ge in B1. assert (K : (Z.to_nat n < length L)%nat) by lia.
    apply sorted_add; auto; apply (prio_nth_ok L _ S K).
  - unfold del. destruct (is_in c L); auto. apply sorted_filter. auto.
  - destruct (is_in c L); auto. cbn. destruct (xeqb p (prio_nth (pos_of c L) L)); auto. assert (SD : sorted (drop c L)) by (apply sorted_filter; auto). apply sorted_put; auto; [apply before_ok; auto|].
    intros x X. apply xlt_le. apply (before_ok p _ SD); auto.
  - destruct io as [i|]; [destruct (nth_z i L); auto; apply sorted_filter; auto|]. destruct L as [|e L]; auto. apply S.
  - apply add_all_sorted. auto.
Qed.
Definition all_sorted (P : plain) : Prop := forall q, (q < p_n P)%nat -> sorted (p_l P q).
Lemma new_sorted : forall P cap L, all_sorted P -> sorted L -> all_sorted (p_new P cap L).
Proof. intros P cap L A S q Q. cbn in *. unfold upd. destruct (Nat.eqb_spec q (p_n P)); auto. apply A. lia. Qed.
Lemma set_sorted : forall P q L, all_sorted P -> sorted L -> all_sorted (p_set P q L).
Proof. intros P q L A S q' Q. cbn in *. unfold upd. destruct (Nat.eqb_spec q' q); auto. Qed.
Lemma spec_sorted : forall o P, all_sorted P -> (forall q, queue_of o = Some q -> (q < p_n P)%nat) -> orderly P o ->
  match o with QUnion a b | QInter a b | QDiff a b | QSym a b => (a < p_n P /\ b < p_n P)%nat | QCopy a _ | QMove a _ => (a < p_n P)%nat | _ => True end -> all_sorted (fst (spec o P)).
Proof.
  intros o P A Q O W. unfold spec. destruct (queue_of o) as [q|] eqn:QO.
  - pose proof (on_queue_sorted o (p_cap P q) (p_l P q) (A q (Q q eq_refl))) as S. destruct (on_queue o (p_cap P q) (p_l P q)) as [L r]. cbn [fst] in *. apply set_sorted; auto. apply S. destruct o; auto. cbn in QO. injection QO as <-. exact O.
  - destruct o; cbn in QO; try discriminate; cbn [fst]; auto.
    + apply new_sorted; auto.
    + intros q L. cbn in *. apply sorted_filter. auto.
    + apply new_sorted; auto. apply sorted_all_zero. intros x X. apply in_app_or in X. destruct X as [X|X]; [|apply filter_In in X; destruct X as [X _]]; apply in_map_iff in X; destruct X as (y & <- & _); auto.
    + apply new_sorted; auto. apply sorted_filter, sorted_zero.
    + apply new_sorted; auto. apply sorted_filter. apply A. tauto.
    + apply new_sorted; auto. apply sorted_all_zero. intros x X. apply in_app_or in X. destruct X as [X|X]; apply filter_In in X; destruct X as [X _]; apply in_map_iff in X; destruct X as (y & <- & _); auto.
    + destruct (if cap then fits_n (p_cap P a) (p_l P a) else (p_l P a, Rok None)) as [L r] eqn:E. cbn [fst]. apply new_sorted; auto. eapply copied_sorted; eauto.
    + destruct (if cap then fits_n (p_cap P a) (p_l P a) else (p_l P a, Rok None)) as [L r] eqn:E. destruct r; cbn [fst].
      * apply set_sorted; [apply new_sorted; auto; eapply copied_sorted; eauto|exact I].
      * apply new_sorted; auto. eapply copied_sorted; eauto.
Qed.
(** the heaps reached by programs that use Queue.insert only inside queues *)
Inductive qreach_o : heap -> Prop :=
| qo_start : forall t0, qreach_o (start t0)
| qo_step : forall h o h' r, qreach_o h -> qwf h o -> orderly (abs h) o -> qexec o h = (h', r) -> qreach_o h'.
Lemma qo_reach : forall h, qreach_o h -> qreach h.
Proof. intros h R. induction R; [constructor|eapply qr_step; eauto]. Qed.
Theorem C32_sorted : forall h q, qreach_o h -> (q < nq h)%nat -> in_order (p_l (abs h) q).
Proof.
  assert (G : forall h, qreach_o h -> all_sorted (abs h)).
  { intros h R. induction R as [t0|h o h' r R IH W O E]; [intros q Q; cbn in Q; lia|]. pose proof (qo_reach h R) as RR. destruct (asks o) eqn:A.
    - destruct (C31_iterating_changes_nothing h o h' r RR W A E) as [[N S] _]. intros q Q. destruct (S q Q) as [_ ->]. apply IH. rewrite <- N. auto.
    - destruct (C31_operations h o h' r RR W A E) as [[N S] _]. intros q Q. destruct (S q Q) as [_ ->]. apply spec_sorted; auto; [|destruct o; cbn in *; auto|rewrite <- N; auto].
      intros q' Q'. destruct o; cbn in *; try discriminate; injection Q' as <-; auto. }
  intros h q R Q. apply sorted_in_order. apply (G h R q Q).
Qed.
(** enter_sorted: behind everything with the same or a smaller number, in front of everything with a larger number *)
Theorem C32_first_come_first_served : forall h c q p h', qreach_o h -> (q < nq h)%nat -> qexec (QEnter c q (Some p)) h = (h', Rok None) ->
  exists A B, p_l (abs h) q = A ++ B /\ p_l (abs h') q = A ++ (c, p) :: B /\ (forall x, In x A -> xle (snd x) p) /\ (forall x, In x B -> xlt p (snd x)).
Proof.
  intros h c q p h' R Q E. pose proof (C32_sorted h q R Q) as S. apply sorted_in_order in S. destruct (C31_operations h _ h' _ (qo_reach h R) (Q : qwf h (QEnter c q (Some p))) eq_refl E) as [[N X] Y].
  unfold spec in *. cbn [queue_of on_queue] in *. unfold add in *. destruct (is_in c (p_l (abs h) q)); [discriminate|]. destruct (is_full (p_cap (abs h) q) (p_l (abs h) q)); [discriminate|].
  destruct (X q) as [_ Z]; [rewrite N; exact Q|]. cbn in Z. rewrite upd_same in Z. destruct (place_ok p _ S) as [A B].
  eexists _, _. split; [symmetry; apply firstn_skipn|]. split; [exact Z|]. auto.
Qed.
(** a change of priority: the same place among the others *)
Theorem C32_new_priority : forall h c q p h', qreach_o h -> (q < nq h)%nat -> qexec (QPrio c q p) h = (h', Rok None) ->
  (forall p0, In (c, p0) (p_l (abs h) q) -> ~ xeq p p0) ->
  exists A B, filter (fun e => negb (Nat.eqb c (fst e))) (p_l (abs h) q) = A ++ B /\ p_l (abs h') q = A ++ (c, p) :: B /\ (forall x, In x A -> xle (snd x) p) /\ (forall x, In x B -> xlt p (snd x)).
Proof.
  intros h c q p h' R Q E NE. pose proof (C32_sorted h q R Q) as S. apply sorted_in_order in S. destruct (C31_operations h _ h' _ (qo_reach h R) (Q : qwf h (QPrio c q p)) eq_refl E) as [[N X] Y].
  unfold spec in *. cbn [queue_of on_queue] in *. destruct (is_in c (p_l (abs h) q)) eqn:IN; [|discriminate].
  destruct (X q) as [_ Z]; [rewrite N; exact Q|]. destruct (xeqb p (prio_nth (pos_of c (p_l (abs h) q)) (p_l (abs h) q))) eqn:EQ.
  - exfalso. apply xeqb_iff in EQ. apply (NE (prio_nth (pos_of c (p_l (abs h) q)) (p_l (abs h) q))); auto. revert IN. generalize (p_l (abs h) q). clear. intros L IN. unfold prio_nth. induction L as [|e L IH]; [discriminate|]. cbn [pos_of]. unfold is_in in IN. cbn in IN.
    destruct (Nat.eqb_spec c (fst e)) as [->|N]; [left; destruct e; reflexivity|]. right. apply IH. exact IN.
  - cbn in Z. rewrite upd_same in Z. assert (SD : sorted (drop c (p_l (abs h) q))) by (apply sorted_filter; auto). destruct (before_ok p _ SD) as [A B].
    eexists _, _. split; [symmetry; apply firstn_skipn|]. split; [exact Z|]. auto.
Qed.
Lemma run_reach_o : forall l h, qreach_o h -> all_wf l h -> (forall o, In o l -> match o with QInsert _ _ _ => False | _ => True end) -> qreach_o (run_all l h).
Proof.
  induction l as [|o l IH]; cbn [run_all all_wf]; auto. intros h R [W A] NI. apply IH; auto; [|intros x X; apply NI; right; auto]. destruct (qexec o h) as [h2 r] eqn:E. eapply qo_step; eauto. specialize (NI o (or_introl eq_refl)). destruct o; exact Logic.I || tauto.
Qed.
(** Queue.insert at the end of the queue gives the component priority 0 instead of that of its neighbour *)
Theorem C32_insert_at_end_refuted : exists h o h', qreach_o h /\ qwf h o /\ (exists c, o = QInsert (Z.of_nat (length (p_l (abs h) 0%nat))) c 0) /\ qexec o h = (h', Rok None) /\ ~ in_order (p_l (abs h') 0%nat).
Proof.
  assert (RR : qreach_o (run_all [QNew PInf; QEnter 10 0 (Some (Fin 5))] (start 0))).
  { apply run_reach_o; [constructor| |].
    - cbn [all_wf]. repeat split; vm_compute; auto with arith.
    - cbn [In]. intros o H. repeat destruct H as [<-|H]; try exact Logic.I; destruct H. }
  exists (run_all [QNew PInf; QEnter 10 0 (Some (Fin 5))] (start 0)), (QInsert 1 11 0). eexists. split; [exact RR|]. split; [vm_compute; auto|]. split; [exists 11%nat; reflexivity|]. split; [vm_compute; reflexivity|].
  intro O. apply sorted_in_order in O. vm_compute in O. destruct O as [O _]. specialize (O _ (or_introl eq_refl)). apply O. reflexivity.
Qed.
Lemma h1_reach_o : qreach_o h1.
Proof.
  apply run_reach_o; [constructor| |].
  - cbn [all_wf prog]. repeat split; vm_compute; try (intro; discriminate); try reflexivity; auto with arith.
  - unfold prog. cbn [In]. intros o H. repeat destruct H as [<-|H]; try exact Logic.I; destruct H.
Qed.
Example C32_case : exists c p h', qreach_o h1 /\ (0 < nq h1)%nat /\ qexec (QEnter c 0 (Some p)) h1 = (h', Rok None) /\ p_l (abs h') 0%nat = [(11, Fin 3); (13, Fin 3); (12, Fin 4)]%nat.
Proof. exists 13%nat, (Fin 3). eexists. split; [apply h1_reach_o|]. split; [vm_compute; auto|]. split; [vm_compute; reflexivity|]. vm_compute. reflexivity. Qed.
Example C32_case_prio : exists h', qexec (QPrio 11 0 (Fin 4)) h1 = (h', Rok None) /\ p_l (abs h') 0%nat = [(12, Fin 4); (11, Fin 4)]%nat.
Proof. eexists. split; vm_compute; reflexivity. Qed.
Print Assumptions C32_sorted.
Print Assumptions C32_first_come_first_served.
Print Assumptions C32_new_priority.
Print Assumptions C32_insert_at_end_refuted.
