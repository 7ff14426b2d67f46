(** Property C71 for stores: taking out and putting in, also when others are waiting for the item or for the room. *)
From Coq Require Import QArith Lqa List Bool Arith ZArith Lia.
From Verif Require Import Base Kernel Wp KernelE KernelL KernelX KernelT KernelU KernelR KernelQ KernelS KernelI KernelP KernelO KernelA KernelB KernelC KernelD KernelF KernelG KernelV KernelW KernelH KernelY KernelZ KernelN PropRes PropReq PropWake PropGrant PropOnce PropSafe PropStore.
Import ListNotations.
Open Scope Q_scope.

(** a number of items *)
Definition whole (cap : xq) : Prop := forall q, cap = Fin q -> exists z, q == inject_Z z.
(** the item of the first component in the queue for space of store k is not there yet (except i, which goes) *)
Definition new_item (s : env) (k i : nat) : Prop := forall w, hd_error (putters s k) = Some w -> exists j, c_titem (comps s w) = Some j /\ (j = i \/ ~ In j (items s k)).
Lemma whole_room : forall cap (l : list (nat * xq)), whole cap -> xltb (Fin 0) (xsubq cap (xlen l)) = true -> xltb (xsubq cap (xlen l + 1)) (Fin 0) = false.
Proof.
  intros cap l W H. apply xltb_iff in H. apply xltb_false_iff. destruct cap as [c|]; cbn in *; auto. destruct (W c eq_refl) as (z & E). unfold xlen in *. rewrite E in *.
  assert (Z : (Z.of_nat (length l) < z)%Z) by (rewrite Zlt_Qlt; lra).
  assert (L : inject_Z (Z.of_nat (length l) + 1) <= inject_Z z) by (rewrite <- Zle_Qle; lia). rewrite inject_Z_plus in L. change (inject_Z 1) with 1 in L. lra.
Qed.
Lemma items_out : forall s k i j, In j (items (out k i s) k) <-> In j (items s k) /\ j <> i.
Proof.
  intros s k i j. unfold items. rewrite qs_out_k. unfold adel. rewrite !in_map_iff. split.
  - intros (x & <- & J). apply filter_In in J. destruct J as (J1 & J2). apply negb_true_iff, Nat.eqb_neq in J2. split; eauto.
  - intros ((x & <- & J) & N). exists x. split; auto. apply filter_In. split; auto. apply negb_true_iff, Nat.eqb_neq. auto.
Qed.
Lemma not_stuck : forall s k i, whole (kcap s k) -> new_item s k i -> ~ stuck s k i.
Proof.
  intros s k i W N (w & P & RM & H). destruct (N w P) as (j & T & J). destruct H as [H|(j' & T' & H)]; [congruence|]. assert (j' = j) by congruence. subst j'. destruct H as [H|H].
  - apply items_out in H. destruct H as (A & B), J; contradiction.
  - unfold KernelZ.room in RM. rewrite qs_out_k in RM. change (kcap (out k i s)) with (kcap s) in RM. rewrite (whole_room _ _ W RM) in H. discriminate H.
Qed.

(** ** Theorems *)
(** an item that is in a store can be taken out, whoever waits, unless the hand-over has no end (C30), or the item that waits for the room is in the store already *)
Theorem C71_store_leave_partial : forall s k i, reachable s -> In i (items s k) -> whole (kcap s k) -> new_item s k i -> ~ circular s k i -> succeeds s (OLeaveStore i k).
Proof.
  intros s k i R I W N C. pose proof (rdy_of _ (reach_p_QI _ _ R) (reach_p_one _ _ R)) as RD.
  assert (E : exists s', exec 2 (OLeaveStore i k) s = (s', Ok tt)).
  { cbn [exec]. destruct (item_leave 2 k i s) as (s', r) eqn:X. destruct (leave_cases _ _ _ _ _ _ RD I X) as [(-> & _)|(e & _ & [Y|[Y|(Y & _)]])]; [eauto | lia | |].
    - apply circular_iff in Y; auto. contradiction.
    - destruct (not_stuck s k i W N Y). }
  destruct E as (s' & E). exists 2%nat, s'. intros n L. eapply exec_fuel; [exact L | exact E | discriminate].
Qed.
(** an item for which there is room can be put in *)
Theorem C71_store_enter_partial : forall s k i w, reachable s -> fits s k i w -> whole (kcap s k) -> new_item s k i -> ~ circular (inn k i w s) k i -> succeeds s (OEnterStore i k w).
Proof.
  intros s k i w R F W N C. pose proof (rdy_of _ (reach_p_QI _ _ R) (reach_p_one _ _ R)) as RD. pose proof F as (A & B & D).
  assert (R1 : rdy (inn k i w s)) by (apply rdy_inn; auto). assert (I1 : In i (items (inn k i w s) k)) by (apply items_inn; auto).
  assert (N1 : new_item (inn k i w s) k i).
  { intros x H. unfold putters in H. rewrite qs_inn in H by discriminate. destruct (N x H) as (j & T & J). exists j. split; [exact T|]. destruct (Nat.eq_dec j i) as [->|X]; [left; reflexivity|]. right.
    destruct J as [J|J]; [contradiction|]. intros Y. apply items_inn in Y; auto. destruct Y; auto. }
  assert (E : exists s', exec 3 (OEnterStore i k w) s = (s', Ok tt)).
  { cbn [exec]. rewrite enter_step. rewrite (proj2 (inq_false i _) A), B, D. cbn [negb]. destruct (taker s k i) as [d|] eqn:TK; [|eauto].
    unfold bind at 1. destruct (item_leave 2 k i (inn k i w s)) as (s2, r2) eqn:X. destruct (leave_cases _ _ _ _ _ _ R1 I1 X) as [(-> & L & R2)|(e & _ & [Y|[Y|(Y & _)]])]; [|lia | |].
    - assert (T2 : In d (takers s2 k)). { rewrite (takers_leaves _ _ _ _ _ L). apply find_some in TK. apply TK. }
      destruct (hand_ok s2 d i) as (s3 & E3 & _); [apply R2 | apply R2 | intros j J; apply (ry_f _ R2 d k j); auto|]. rewrite E3. eauto.
    - apply circular_iff in Y; auto. contradiction.
    - destruct (not_stuck (inn k i w s) k i W N1 Y). }
  destruct E as (s' & E). exists 3%nat, s'. intros n L. eapply exec_fuel; [exact L | exact E | discriminate].
Qed.
(** store 0 (room 2) holds 11 and 12, 3 waits to put 14 in it, 1 and 2 wait for items: 11 can be taken out *)
Example C71_case_store : let s := stp any envk shop2 in reachable s /\ In 11%nat (items s 0) /\ whole (kcap s 0) /\ new_item s 0 11 /\ ~ circular s 0 11 /\ putters s 0 = [3%nat] /\ items (fst (exec 2 (OLeaveStore 11 0) s)) 0 = [12; 14]%nat.
Proof.
  intros s. destruct C30_case as (R & I & P & _ & C & _). fold s in R, I, P, C. split; [exact R|]. split; [exact I|]. split.
  - intros q E. exists 2%Z. assert (X : kcap s 0 = Fin 2) by (vm_compute; reflexivity). rewrite X in E. injection E as <-. reflexivity.
  - split; [|split; [exact C | split; [exact P | vm_compute; reflexivity]]]. intros w H. rewrite P in H. injection H as <-. exists 14%nat. split; [vm_compute; reflexivity|]. right.
    assert (X : items s 0 = [11; 12]%nat) by (vm_compute; reflexivity). rewrite X. intros [Y|[Y|[]]]; discriminate Y.
Qed.
(** and 15 can be put in store 1, that has room *)
Example C71_case_store2 : let s := stp any envk shop2 in exists w, fits s 1 15 w /\ new_item s 1 15 /\ snd (exec 3 (OEnterStore 15 1 w) s) = Ok tt.
Proof.
  intros s. exists PTail. split; [split; [|split; vm_compute; reflexivity]|split; [|vm_compute; reflexivity]].
  - assert (X : items s 1 = []) by (vm_compute; reflexivity). rewrite X. intros [].
  - intros w H. assert (X : putters s 1 = []) by (vm_compute; reflexivity). rewrite X in H. discriminate H.
Qed.
Print Assumptions C71_store_leave_partial.
Print Assumptions C71_store_enter_partial.
