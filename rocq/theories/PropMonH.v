(** Property C40, continued: which values a monitor with a type takes. *)
From Coq Require Import QArith Qround List Bool ZArith Lia Lqa.
From Verif Require Import Base Mon.
Import ListNotations.
Open Scope Q_scope.

(** the types by number of bits, signed or not *)
Definition sized : list (mtype * bool * Z) :=
  [(ty_int8, true, 8%Z); (ty_uint8, false, 8%Z); (ty_bool, false, 8%Z); (ty_int16, true, 16%Z); (ty_uint16, false, 16%Z); (ty_int32, true, 32%Z); (ty_uint32, false, 32%Z); (ty_int64, true, 64%Z); (ty_uint64, false, 64%Z)].
(** an integer that fits in that many bits *)
Definition in_bits (signed : bool) (b z : Z) : Prop := if signed then (- 2 ^ (b - 1) <= z < 2 ^ (b - 1))%Z else (0 <= z < 2 ^ b)%Z.
(** the value that stands for off: the lowest of a signed type, the highest of an unsigned type *)
Definition off_value (signed : bool) (b : Z) : Z := if signed then (- 2 ^ (b - 1))%Z else (2 ^ b - 1)%Z.
Lemma fits_int : forall lo hi o q, fits (TInt lo hi o) (Num q) = true <-> exists z, q == inject_Z z /\ (lo <= z <= hi)%Z.
Proof.
  intros lo hi o q. cbn [fits]. unfold is_int. rewrite !andb_true_iff, !Qle_bool_iff. split.
  - intros ((I & A) & B). apply Qeq_bool_iff in I. exists (Qfloor q). symmetry in I. split; auto. rewrite I in A, B. rewrite <- Zle_Qle in A, B. auto.
  - intros (z & E & A & B). rewrite Zle_Qle in A, B. split; [split; [|lra]|lra]. apply Qeq_bool_iff. assert (F : Qfloor q = z) by (rewrite E; apply Qfloor_Z). rewrite F. symmetry. auto.
Qed.
(** A monitor with a type takes exactly the integers that the type can hold; a level monitor all of them but the one that stands for off. *)
Theorem C40_types : forall ty signed b v m q w, In (ty, signed, b) sized -> m_type m = ty -> m_gen m = false -> m_stats m = false -> m_on m = true ->
  (m_level m = false -> (snd (tally (Num q) w v m) = Mok tt <-> exists z, q == inject_Z z /\ in_bits signed b z)) /\
  (m_level m = true -> m_e m <> [] -> (snd (tally (Num q) 1 v m) = Mok tt <-> exists z, q == inject_Z z /\ in_bits signed b z /\ z <> off_value signed b)).
Proof.
  intros ty signed b v m q w I T G ST ON.
  assert (X : exists lo hi, ty = TInt lo hi (off_value signed b) /\ forall z, in_bits signed b z <-> (lo <= z <= hi)%Z).
  { cbn in I. repeat (destruct I as [I|I]; [injection I as <- <- <-; eexists; eexists; split; [reflexivity|]; intro z; unfold in_bits; cbn; lia|]). destruct I. }
  destruct X as (lo & hi & TY & B). assert (F : fits ty (Num q) = true <-> exists z, q == inject_Z z /\ in_bits signed b z).
  { rewrite TY, fits_int. split; intros (z & E & Z); exists z; (split; [auto|]); apply B; auto. }
  split; intro L; [|intro NE]; unfold tally; rewrite G, ST; cbn [set_cache m_level m_on]; rewrite L, ?ON; cbn [m_type m_e m_on set_w set_cache set_tally]; rewrite ?T.
  - destruct (fits ty (Num q)) eqn:E; cbn [snd].
    + split; auto. intros _. apply F. auto.
    + split; [discriminate|]. intro H. apply F in H. congruence.
  - change (Qeq_bool 1 1) with true. cbn [negb]. unfold m_off. cbn [m_type set_cache]. rewrite T. destruct (veqb (Num q) (off_of ty)) eqn:V; cbn [snd].
    + split; [discriminate|]. intros (z & E & _ & N). rewrite TY in V. cbn in V. apply Qeq_bool_iff in V. exfalso. apply N. rewrite E in V. apply inject_Z_injective. auto.
    + cbn [set_tally set_cache m_on m_e]. rewrite ON. destruct (m_e m) as [|[s y] r] eqn:ME; [congruence|]. destruct (fits ty (Num q)) eqn:E; cbn [snd].
      * split; auto. intros _. destruct (proj1 F eq_refl) as (z & Z1 & Z2). exists z. split; auto. split; auto. intros ->. rewrite TY in V. cbn in V. assert (Qeq_bool q (inject_Z (off_value signed b)) = true) by (apply Qeq_bool_iff; auto). congruence.
      * split; [discriminate|]. intros (z & Z1 & Z2 & _). assert (false = true) by (apply F; eauto). discriminate.
Qed.
Example C40_types_case : In (ty_int8, true, 8%Z) sized /\ in_bits true 8 127 /\ ~ in_bits true 8 128.
Proof. split; [cbn; auto|]. unfold in_bits. split; lia. Qed.
Print Assumptions C40_types.
