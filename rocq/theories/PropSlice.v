(** Property C31, slices of queues. *)
From Coq Require Import QArith List Bool Arith ZArith Lia Sorting.Sorted.
From Verif Require Import Base QHeap QSpec QHeapP QHeapR QHeapI QHeapS PropQueue.
Import ListNotations.
Open Scope Z_scope.

(** ** Specification *)
(** the position an index stands for, in a list of n elements: a negative one counts from the end *)
Definition place (n i : Z) : Z := if i <? 0 then n + i else i.
(** the positions of q[start:stop:step] for a positive step: from start (at least 0) on, before stop, each step-th; all of them positions of the list, in order *)
Definition forwards (start stop : option Z) (step n : Z) : list Z :=
  let a := Z.max 0 (match start with None => 0 | Some i => place n i end) in
  let b := match stop with None => n | Some i => place n i end in
  filter (fun i => (a <=? i) && (i <? b) && ((i - a) mod step =? 0)) (map Z.of_nat (List.seq 0 (Z.to_nat n))).
(** for a negative step: from start (at most the last position) down, after stop, each (- step)-th *)
Definition backwards (start stop : option Z) (step n : Z) : list Z :=
  let a := Z.min (n - 1) (match start with None => n - 1 | Some i => place n i end) in
  let b := match stop with None => -1 | Some i => place n i end in
  filter (fun i => (i <=? a) && (b <? i) && ((a - i) mod (- step) =? 0)) (rev (map Z.of_nat (List.seq 0 (Z.to_nat n)))).

(** ** Proof *)
Lemma sorted_ext : forall (R : Z -> Z -> Prop) l l', (forall x, ~ R x x) -> (forall x y z, R x y -> R y z -> R x z) -> StronglySorted R l -> StronglySorted R l' -> (forall i, In i l <-> In i l') -> l = l'.
Proof.
  intros R l l' IR TR. revert l'. induction l as [|x l IH]; intros [|y l'] S S' E; auto.
  - destruct (proj2 (E y) (or_introl eq_refl)).
  - destruct (proj1 (E x) (or_introl eq_refl)).
  - inversion S as [|? ? S1 F]; subst. inversion S' as [|? ? S1' F']; subst. rewrite Forall_forall in F, F'.
    assert (x = y). { destruct (proj1 (E x) (or_introl eq_refl)) as [|H]; auto. destruct (proj2 (E y) (or_introl eq_refl)) as [|H']; auto. apply F' in H. apply F in H'. exfalso. apply (IR x). eauto. } subst y. f_equal.
    apply IH; auto. intro i. split; intro H; [destruct (proj1 (E i) (or_intror H)) as [<-|]|destruct (proj2 (E i) (or_intror H)) as [<-|]]; auto; exfalso; apply (IR x); auto.
Qed.
Lemma sorted_filter : forall (R : Z -> Z -> Prop) f l, StronglySorted R l -> StronglySorted R (filter f l).
Proof.
  induction l as [|x l IH]; intro S; cbn; [constructor|]. inversion S; subst. destruct (f x); auto. constructor; auto. rewrite Forall_forall in *. intros y I. apply filter_In in I. apply H2. tauto.
Qed.
Lemma sorted_up : forall n k, StronglySorted Z.lt (map Z.of_nat (List.seq k n)).
Proof.
  induction n as [|n IH]; intro k; cbn [List.seq map]; constructor; auto. rewrite Forall_forall. intros x I. apply in_map_iff in I. destruct I as (j & <- & I). apply in_seq in I. lia.
Qed.
Lemma sorted_rev : forall l, StronglySorted Z.lt l -> StronglySorted Z.gt (rev l).
Proof.
  induction l as [|x l IH]; intro S; cbn; [constructor|]. inversion S as [|? ? S1 F]; subst. specialize (IH S1). rewrite Forall_forall in F.
  assert (X : forall m, StronglySorted Z.gt m -> (forall y, In y m -> x < y) -> StronglySorted Z.gt (m ++ [x])).
  { clear. induction m as [|y m IH]; intros S L; cbn; [repeat constructor|]. inversion S; subst. constructor; [apply IH; auto; intros; apply L; right; auto|]. rewrite Forall_forall in *. intros z I. apply in_app_or in I. destruct I as [I|[<-|[]]]; auto. specialize (L y (or_introl eq_refl)). lia. }
  apply X; auto. intros y I. apply F. apply in_rev. auto.
Qed.
Lemma in_up : forall n i, 0 <= n -> (In i (map Z.of_nat (List.seq 0 (Z.to_nat n))) <-> 0 <= i < n).
Proof.
  intros n i N. rewrite in_map_iff. split; [intros (k & <- & I); apply in_seq in I; lia|]. intro B. exists (Z.to_nat i). split; [lia|]. apply in_seq. lia.
Qed.
Lemma range_sorted : forall m a b step, step <> 0 -> (Z.to_nat (Z.abs (b - a)) <= m)%nat -> (0 < step -> StronglySorted Z.lt (range a b step)) /\ (step < 0 -> StronglySorted Z.gt (range a b step)).
Proof.
  induction m as [|m IH]; intros a b step NZ M.
  - assert (a = b) by lia. subst. rewrite range_nil; auto; [split; constructor|]. destruct (0 <? step); lia.
  - destruct (Z.ltb_spec 0 step) as [P|P].
    + split; [intros _|lia]. destruct (Z.lt_ge_cases a b) as [L|G].
      * rewrite range_cons; auto; [|destruct (Z.ltb_spec 0 step); lia]. destruct (Z.le_gt_cases (a + step) b) as [L2|G2].
        -- constructor; [apply (IH (a + step) b step); lia|]. rewrite Forall_forall. intros i I. apply in_range in I; auto. destruct (Z.ltb_spec 0 step); lia.
        -- rewrite (range_nil (a + step)); auto; [repeat constructor|]. destruct (Z.ltb_spec 0 step); lia.
      * rewrite range_nil; auto; [constructor|]. destruct (Z.ltb_spec 0 step); lia.
    + split; [lia|intro N]. destruct (Z.lt_ge_cases b a) as [L|G].
      * rewrite range_cons; auto; [|destruct (Z.ltb_spec 0 step); lia]. destruct (Z.le_gt_cases b (a + step)) as [L2|G2].
        -- constructor; [apply (IH (a + step) b step); lia|]. rewrite Forall_forall. intros i I. apply in_range in I; auto. destruct (Z.ltb_spec 0 step); lia.
        -- rewrite (range_nil (a + step)); auto; [repeat constructor|]. destruct (Z.ltb_spec 0 step); lia.
      * rewrite range_nil; auto; [constructor|]. destruct (Z.ltb_spec 0 step); lia.
Qed.
Lemma range_up : forall a b step i, 0 < step -> (In i (range a b step) <-> a <= i < b /\ (i - a) mod step = 0).
Proof.
  intros a b step i P. split.
  - intro I. split; [apply in_range in I; [destruct (Z.ltb_spec 0 step); lia|lia]|]. unfold range in I. destruct (Z.ltb_spec 0 step); [|lia]. apply in_map_iff in I. destruct I as (k & <- & _). replace (a + Z.of_nat k * step - a) with (Z.of_nat k * step) by lia. apply Z.mod_mul. lia.
  - intros (B & M). unfold range. destruct (Z.ltb_spec 0 step); [|lia]. apply in_map_iff. apply Z.mod_divide in M; [|lia]. destruct M as [k M]. exists (Z.to_nat k). assert (0 <= k) by nia. split; [lia|]. apply in_seq. assert (k + 1 <= (b - a + step - 1) / step); [|lia]. apply Z.div_le_lower_bound; nia.
Qed.
Lemma range_down : forall a b step i, step < 0 -> (In i (range a b step) <-> b < i <= a /\ (a - i) mod (- step) = 0).
Proof.
  intros a b step i P. split.
  - intro I. split; [apply in_range in I; [destruct (Z.ltb_spec 0 step); lia|lia]|]. unfold range in I. destruct (Z.ltb_spec 0 step); [lia|]. apply in_map_iff in I. destruct I as (k & <- & _). replace (a - (a + Z.of_nat k * step)) with (Z.of_nat k * - step) by lia. apply Z.mod_mul. lia.
  - intros (B & M). unfold range. destruct (Z.ltb_spec 0 step); [lia|]. apply in_map_iff. apply Z.mod_divide in M; [|lia]. destruct M as [k M]. exists (Z.to_nat k). assert (0 <= k) by nia. split; [lia|]. apply in_seq. assert (k + 1 <= (a - b - step - 1) / - step); [|lia]. apply Z.div_le_lower_bound; nia.
Qed.
Lemma forwards_ok : forall start stop step n, 0 <= n -> 0 < step -> let '(a, b) := indices start stop step n in range a b step = forwards start stop step n.
Proof.
  intros start stop step n N P. unfold indices. destruct (Z.ltb_spec 0 step); [|lia]. unfold forwards. apply (sorted_ext Z.lt); [lia|lia|eapply range_sorted; [lia|reflexivity|auto]|apply sorted_filter, sorted_up|].
  intro i. rewrite range_up, filter_In, in_up, !andb_true_iff, Z.leb_le, Z.ltb_lt, Z.eqb_eq by auto.
  set (a := clip 0 n n start 0). set (b := clip 0 n n stop n). set (a' := Z.max 0 _). set (b' := match stop with None => n | Some i => place n i end).
  assert (B : 0 <= i < n -> (i < b <-> i < b')) by (subst b b'; unfold clip, place; destruct stop as [j|]; [destruct (Z.ltb_spec j 0); lia|lia]).
  assert (A : a = a' \/ (n <= a /\ n <= a')) by (subst a a'; unfold clip, place; destruct start as [j|]; [destruct (Z.ltb_spec j 0); lia|lia]).
  assert (A0 : 0 <= a) by (subst a; unfold clip; destruct start as [j|]; [destruct (Z.ltb_spec j 0); lia|lia]).
  assert (B0 : b <= n) by (subst b; unfold clip; destruct stop as [j|]; [destruct (Z.ltb_spec j 0); lia|lia]).
  destruct A as [<-|A]; [|lia]. clearbody a b b'. intuition lia.
Qed.
Lemma backwards_ok : forall start stop step n, 0 <= n -> step < 0 -> let '(a, b) := indices start stop step n in range a b step = backwards start stop step n.
Proof.
  intros start stop step n N P. unfold indices. destruct (Z.ltb_spec 0 step); [lia|]. unfold backwards. apply (sorted_ext Z.gt); [lia|lia|eapply range_sorted; [lia|reflexivity|auto]|apply sorted_filter, sorted_rev, sorted_up|].
  intro i. rewrite range_down, filter_In, <- in_rev, in_up, !andb_true_iff, Z.leb_le, Z.ltb_lt, Z.eqb_eq by auto.
  set (a := clip (-1) (n - 1) n start (n - 1)). set (b := clip (-1) (n - 1) n stop (-1)). set (a' := Z.min (n - 1) _). set (b' := match stop with None => -1 | Some i => place n i end).
  assert (B : 0 <= i < n -> (b < i <-> b' < i)) by (subst b b'; unfold clip, place; destruct stop as [j|]; [destruct (Z.ltb_spec j 0); lia|lia]).
  assert (A : a = a' \/ (a <= -1 /\ a' <= -1)) by (subst a a'; unfold clip, place; destruct start as [j|]; [destruct (Z.ltb_spec j 0); lia|lia]).
  assert (A0 : a <= n - 1) by (subst a; unfold clip; destruct start as [j|]; [destruct (Z.ltb_spec j 0); lia|lia]).
  assert (B0 : -1 <= b) by (subst b; unfold clip; destruct stop as [j|]; [destruct (Z.ltb_spec j 0); lia|lia]).
  destruct A as [<-|A]; [|lia]. clearbody a b b'. intuition lia.
Qed.
(** ** Property *)
(** A slice of a queue holds exactly the components at the positions asked for, in the order asked for; a step of 0 is refused. *)
Theorem C31_slices : forall h q start stop step, qreach h -> (q < nq h)%nat -> let L := names (p_l (abs h) q) in let n := Z.of_nat (length L) in
  (0 < step -> q_slice q start stop step h = Rok (map (fun i => nth_error L (Z.to_nat i)) (forwards start stop step n))) /\
  (step < 0 -> q_slice q start stop step h = Rok (map (fun i => nth_error L (Z.to_nat i)) (backwards start stop step n))) /\
  q_slice q start stop 0 h = Rer EValue.
Proof.
  intros h q start stop step R Q L n. pose proof (rd_slice _ _ _ (C31_reading h q R Q)) as S. fold L in S. fold n in S. assert (N : 0 <= n) by lia. split; [|split; [|reflexivity]]; intro P.
  - specialize (S start stop step ltac:(lia)). pose proof (forwards_ok start stop step n N P) as F. destruct (indices start stop step n) as [a b]. rewrite (proj1 S), F. auto.
  - specialize (S start stop step ltac:(lia)). pose proof (backwards_ok start stop step n N P) as F. destruct (indices start stop step n) as [a b]. rewrite (proj1 S), F. auto.
Qed.
(** q[-2:], q[::-2] and q[5:1:-1] for a queue of four *)
Example C31_slices_case : forwards (Some (-2)) None 1 4 = [2; 3] /\ backwards None None (-2) 4 = [3; 1] /\ backwards (Some 5) (Some 1) (-1) 4 = [3; 2].
Proof. repeat split. Qed.
Print Assumptions C31_slices.
