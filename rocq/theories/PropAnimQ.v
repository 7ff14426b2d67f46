(* C81: an AnimateQueue (Animate3dQueue) shows the queue: after every frame the
   objects on the screen are those of the first max_length components of the
   queue, each next to the one before, and nothing else of it stays behind. *)

From Coq Require Import List ZArith QArith Bool Lia Lqa FinFun.
From Verif Require Import AnimQ.
Import ListNotations.
Open Scope Q_scope.

(* ---------- lists, dicts, sets ---------- *)

Lemma oid_eqb_iff a b : oid_eqb a b = true <-> a = b.
Proof.
  destruct a, b; cbn; split; intros H; try discriminate; try (inversion H; subst);
    try apply Nat.eqb_refl.
  - apply Nat.eqb_eq in H. subst. reflexivity.
  - apply Nat.eqb_eq in H. subst. reflexivity.
Qed.
Lemma oid_eqb_refl a : oid_eqb a a = true.
Proof. apply oid_eqb_iff. reflexivity. Qed.

Lemma in_add_ob o x l : In x (add_ob o l) <-> In x l \/ x = o.
Proof.
  unfold add_ob. destruct (existsb (oid_eqb o) l) eqn:E.
  - apply existsb_exists in E as (y & A & B). apply oid_eqb_iff in B. subst y.
    split; [tauto | intros [H | ->]; assumption].
  - rewrite in_app_iff. cbn. intuition.
Qed.

Lemma hide_all_shown l : forall s o,
  In o (shown (hide_all l s)) <-> In o (shown s) /\ ~ In o l.
Proof.
  unfold hide_all. induction l as [ | a l IH]; intros s o; cbn [fold_left].
  - cbn. tauto.
  - rewrite IH. cbn [hide shown]. rewrite filter_In. cbn [In].
    destruct (oid_eqb a o) eqn:E.
    + apply oid_eqb_iff in E. subst. cbn. intuition discriminate.
    + assert (a <> o) by (intros ->; rewrite oid_eqb_refl in E; discriminate).
      cbn. tauto.
Qed.
Lemma hide_all_rest l : forall s,
  on (hide_all l s) = on s /\ title (hide_all l s) = title s /\ aos (hide_all l s) = aos s /\
  attr (hide_all l s) = attr s /\ next (hide_all l s) = next s /\ calls (hide_all l s) = calls s.
Proof.
  unfold hide_all. induction l as [ | a l IH]; intros s; cbn [fold_left].
  - repeat split.
  - destruct (IH (hide a s)) as (A & B & C & D & E & F). rewrite A, B, C, D, E, F. repeat split.
Qed.

Lemma place_rest f l : forall s,
  on (place f l s) = on s /\ title (place f l s) = title s /\ aos (place f l s) = aos s /\
  shown (place f l s) = shown s /\ next (place f l s) = next s /\ calls (place f l s) = calls s.
Proof.
  unfold place. induction l as [ | a l IH]; intros s; cbn [fold_left].
  - repeat split.
  - destruct (IH (set_attr f a s)) as (A & B & C & D & E & F). rewrite A, B, C, D, E, F.
    repeat split.
Qed.
Lemma place_out f l : forall s o, ~ In o l -> attr (place f l s) o = attr s o.
Proof.
  unfold place. induction l as [ | a l IH]; intros s o H; cbn [fold_left].
  - reflexivity.
  - rewrite IH by (intros X; apply H; right; exact X). cbn [set_attr attr].
    destruct (oid_eqb a o) eqn:E; [ | reflexivity].
    exfalso. apply H. left. apply oid_eqb_iff. exact E.
Qed.
Lemma place_in f l : forall s o, NoDup l -> In o l -> attr (place f l s) o = f (attr s o).
Proof.
  unfold place. induction l as [ | a l IH]; intros s o N H; cbn [fold_left].
  - destruct H.
  - inversion N as [ | x y N1 N2]; subst. destruct H as [-> | H].
    + pose proof (place_out f l (set_attr f o s) o N1) as P. unfold place in P. rewrite P.
      cbn [set_attr attr]. rewrite oid_eqb_refl. reflexivity.
    + rewrite (IH _ o N2 H). cbn [set_attr attr]. destruct (oid_eqb a o) eqn:E; [ | reflexivity].
      apply oid_eqb_iff in E. subst. contradiction.
Qed.

Lemma look_in {A} c (l : list (nat * A)) e : look c l = Some e -> In (c, e) l.
Proof.
  unfold look. destruct (find _ l) as [x | ] eqn:E; intros H; [ | discriminate].
  inversion H; subst. apply find_some in E as (A1 & A2). apply Nat.eqb_eq in A2. subst.
  destruct x. exact A1.
Qed.
Lemma look_none {A} c (l : list (nat * A)) : look c l = None <-> ~ In c (map fst l).
Proof.
  unfold look. destruct (find _ l) as [x | ] eqn:E; split; intros H; try discriminate.
  - exfalso. apply H. apply find_some in E as (A1 & A2). apply Nat.eqb_eq in A2. subst.
    apply in_map. exact A1.
  - intros X. apply in_map_iff in X as (y & <- & Y). pose proof (find_none _ _ E y Y) as Z.
    cbn in Z. rewrite Nat.eqb_refl in Z. discriminate.
  - reflexivity.
Qed.

Lemma del_split {A} c (l : list (nat * A)) e :
  NoDup (map fst l) -> look c l = Some e ->
  exists l1 l2, l = l1 ++ (c, e) :: l2 /\ del c l = l1 ++ l2.
Proof.
  induction l as [ | (d, x) l IH]; intros N H; [discriminate | ].
  cbn in N. inversion N as [ | a b N1 N2]; subst.
  unfold look in H. cbn [find fst] in H. destruct (Nat.eqb c d) eqn:E.
  - cbn in H. inversion H; subst. apply Nat.eqb_eq in E. subst.
    exists [], l. split; [reflexivity | ]. cbn [del filter fst].
    rewrite Nat.eqb_refl. cbn [negb app].
    clear - N1. induction l as [ | (a, b) l IH]; [reflexivity | ]. cbn in *.
    destruct (Nat.eqb d a) eqn:E; [apply Nat.eqb_eq in E; subst; tauto | ].
    cbn [negb]. f_equal. apply IH. tauto.
  - destruct (IH N2) as (l1 & l2 & -> & B).
    { unfold look. exact H. }
    exists ((d, x) :: l1), l2. split; [reflexivity | ]. unfold del in *. cbn [filter fst].
    rewrite E. cbn [negb app]. f_equal. exact B.
Qed.

Lemma nodup_app {A} (a b : list A) :
  NoDup (a ++ b) <-> NoDup a /\ NoDup b /\ (forall x, In x a -> ~ In x b).
Proof.
  induction a as [ | x a IH]; cbn [app].
  - split; [intros H; split; [constructor | split; [exact H | intros y []]] | tauto].
  - rewrite !NoDup_cons_iff, IH, in_app_iff. cbn [In]. split.
    + intros (P & (Q1 & Q2 & Q3)). repeat split; try tauto. intros y [<- | Y]; [tauto | auto].
    + intros ((P1 & P2) & P3 & P4). repeat split; try tauto.
      * intros [Y | Y]; [tauto | exact (P4 x (or_introl eq_refl) Y)].
      * intros y Y. apply P4. right. exact Y.
Qed.

Lemma obs_of_app a b : obs_of (a ++ b) = obs_of a ++ obs_of b.
Proof. unfold obs_of. apply flat_map_app. Qed.

(* ---------- whose objects are on the screen ---------- *)

(* exactly the objects l of this AnimateQueue are on the screen, each made once *)
Definition owns (l : list oid) (s : st) : Prop :=
  NoDup l /\ Forall (fun o => exists n, o = Own n /\ (n < next s)%nat) l /\
  (forall n, In (Own n) (shown s) <-> In (Own n) l).

Lemma owns_perm l l' s : NoDup l' -> (forall o, In o l <-> In o l') -> owns l s -> owns l' s.
Proof.
  intros N E (A & B & C). split; [exact N | ]. split.
  - rewrite Forall_forall in *. intros o H. apply B. apply E. exact H.
  - intros n. rewrite C. apply E.
Qed.

Lemma build_spec l : forall s r s', Forall (fun x => x = None) l -> build l s = (r, s') ->
  r = map Own (List.seq (next s) (length l)) /\ next s' = (next s + length l)%nat /\
  (forall o, In o (shown s') <-> In o (shown s) \/ In o r) /\
  on s' = on s /\ title s' = title s /\ aos s' = aos s /\ attr s' = attr s /\ calls s' = calls s.
Proof.
  induction l as [ | x l IH]; intros s r s' F H.
  - cbn in H. inversion H; subst. cbn. rewrite Nat.add_0_r. repeat split; tauto.
  - inversion F as [ | a b F1 F2]; subst. cbn [build] in H.
    match type of H with (let '(_, _) := ?X in _) = _ => destruct X as (r1, s1) eqn:E end.
    inversion H; subst. apply (IH _ _ _ F2) in E as (A & B & C & D1 & D2 & D3 & D4 & D5).
    cbn [next shown on title aos attr calls] in *.
    split; [ | split; [ | split]].
    + cbn [length List.seq map]. rewrite A. reflexivity.
    + rewrite B. cbn [length]. lia.
    + intros o. rewrite C, in_add_ob. cbn [In]. intuition.
    + repeat split; assumption.
Qed.

Definition creates (m : method) : Prop := forall c k, Forall (fun x => x = None) (snd (m c k)).

(* the tuple e is what the k-th call of animation_objects returned, for component c *)
Definition made_at (m : method) (k : nat) (c : nat) (e : ent) : Prop :=
  en_dim e = fst (m c k) /\ length (en_obs e) = length (snd (m c k)).
Definition made (m : method) (c : nat) (e : ent) : Prop := exists k, made_at m k c e.

Lemma in_own_seq n a k : In (Own n) (map Own (List.seq a k)) <-> (a <= n < a + k)%nat.
Proof.
  rewrite in_map_iff. split.
  - intros (x & A & B). inversion A; subst. apply in_seq in B. exact B.
  - intros H. exists n. split; [reflexivity | apply in_seq; exact H].
Qed.

Lemma call_spec m c s e s' l : creates m -> call_method m c s = (e, s') -> owns l s ->
  owns (l ++ en_obs e) s' /\ made_at m (calls s) c e /\ calls s' = S (calls s) /\
  (forall n, In (Alien n) (shown s') <-> In (Alien n) (shown s)) /\
  on s' = on s /\ title s' = title s /\ aos s' = aos s /\ attr s' = attr s.
Proof.
  intros M H (O1 & O2 & O3). unfold call_method in H. pose proof (M c (calls s)) as F.
  unfold made_at.
  destruct (m c (calls s)) as (d, r) eqn:E. cbn [snd] in F.
  destruct (build r s) as (obs, s1) eqn:B. inversion H; subst. cbn [en_obs en_dim].
  apply (build_spec _ _ _ _ F) in B as (A & N & C & D1 & D2 & D3 & D4 & D5).
  cbn [calls shown on title aos attr].
  split; [ | split; [ | split; [ | split]]].
  - split; [ | split].
    + apply nodup_app. split; [exact O1 | split].
      * rewrite A. apply Injective_map_NoDup; [ | apply seq_NoDup].
        intros x y X. inversion X. reflexivity.
      * intros o P1 P2. rewrite A in P2. rewrite Forall_forall in O2.
        destruct (O2 o P1) as (n & -> & L). apply in_own_seq in P2. lia.
    + apply Forall_app. split.
      * eapply Forall_impl; [ | exact O2]. cbn. intros o (n & -> & L). exists n.
        split; [reflexivity | lia].
      * rewrite Forall_forall. intros o P. rewrite A in P. apply in_map_iff in P as (n & <- & P).
        apply in_seq in P. exists n. split; [reflexivity | cbn; lia].
    + intros n. cbn [shown]. rewrite C, in_app_iff, O3. reflexivity.
  - cbn. split; [reflexivity | ]. rewrite A, map_length, seq_length. reflexivity.
  - rewrite D5. reflexivity.
  - intros n. rewrite C. split; [intros [P | P]; [exact P | ] | tauto].
    exfalso. rewrite A in P. apply in_map_iff in P as (x & X & _). discriminate.
  - repeat split; assumption.
Qed.

(* ---------- the loop ---------- *)

(* the components that are to be shown: the first max_length of the queue *)
Definition first_of (mx : option Z) (q : list nat) : list nat :=
  match mx with Some k => firstn (Z.to_nat k) q | None => q end.
Definition wanted (vis : bool) (mx : option Z) (q : list nat) : list nat :=
  if vis then first_of mx q else [].

Definition less (mx : option Z) (n : Z) : option Z :=
  match mx with Some k => Some (k - n)%Z | None => None end.

Lemma wanted_stop vis mx n q :
  (match mx with Some k => Z.leb k n | None => false end) || negb vis = true ->
  wanted vis (less mx n) q = [].
Proof.
  unfold wanted. destruct vis; [ | reflexivity]. destruct mx as [k | ]; cbn; [ | discriminate].
  rewrite orb_false_r. intros H. apply Z.leb_le in H.
  replace (Z.to_nat (k - n)) with 0%nat by lia. reflexivity.
Qed.
Lemma wanted_go vis mx n c q :
  (match mx with Some k => Z.leb k n | None => false end) || negb vis = false ->
  wanted vis (less mx n) (c :: q) = c :: wanted vis (less mx (n + 1)) q.
Proof.
  unfold wanted. destruct vis; [ | intros H; rewrite orb_true_r in H; discriminate].
  destruct mx as [k | ]; cbn; [ | reflexivity].
  rewrite orb_false_r. intros H. apply Z.leb_gt in H.
  replace (Z.to_nat (k - n)) with (S (Z.to_nat (k - (n + 1)))) by lia. reflexivity.
Qed.
Lemma wanted_in vis mx q c : In c (wanted vis mx q) -> In c q.
Proof.
  unfold wanted, first_of. destruct vis; [ | intros []]. destruct mx as [k | ]; [ | auto].
  intros H. rewrite <- (firstn_skipn (Z.to_nat k) q). apply in_app_iff. left. exact H.
Qed.

Lemma put_new {A} c (e : A) l : ~ In c (map fst l) -> put c e l = l ++ [(c, e)].
Proof. intros H. unfold put. apply look_none in H. rewrite H. reflexivity. Qed.

Lemma owns_place f l s k : owns k s -> owns k (place f l s).
Proof.
  intros (A & B & C). destruct (place_rest f l s) as (_ & _ & _ & D & E & _).
  split; [exact A | ]. split; [rewrite E; exact B | intros n; rewrite D; apply C].
Qed.

Section Loop.
Variable m : method.
Hypothesis M : creates m.
Variable vis : bool.
Variable mx : option Z.
Variable reuse : bool.
Variable mv : ent -> attrs -> attrs.
Variable pl : attrs -> attrs -> attrs.

(* the place of the component that comes after those of ents *)
Definition past (ents : list ent) (cur : attrs) : attrs := fold_left (fun p e => mv e p) ents cur.

Lemma loop_spec q : forall n cur prev s prev' s',
  loop m vis mx reuse mv pl n q cur prev s = (prev', s') ->
  NoDup q -> NoDup (map fst prev) -> (forall c, In c q -> ~ In c (map fst (aos s))) ->
  owns (obs_of prev ++ obs_of (aos s)) s ->
  Forall (fun x => made m (fst x) (snd x)) prev ->
  let D := wanted vis (less mx n) q in
  exists ents,
    length ents = length D /\ aos s' = aos s ++ combine D ents /\
    NoDup (map fst prev') /\ owns (obs_of prev' ++ obs_of (aos s')) s' /\
    on s' = on s /\ title s' = title s /\
    (forall n, In (Alien n) (shown s') <-> In (Alien n) (shown s)) /\
    Forall2 (made m) D ents /\
    (reuse = false -> forall k c e, nth_error D k = Some c -> nth_error ents k = Some e ->
       made_at m (calls s + k) c e) /\
    (reuse = true -> forall k c e e0, nth_error D k = Some c -> nth_error ents k = Some e ->
       look c prev = Some e0 -> e = e0) /\
    (forall o, In o (obs_of (aos s)) -> attr s' o = attr s o) /\
    (forall k e o, nth_error ents k = Some e -> In o (en_obs e) ->
       exists old, attr s' o = pl (past (firstn k ents) cur) old).
Proof.
  induction q as [ | c q IH]; intros n cur prev s prev' s' H N NP NA OW MA; cbn [loop] in H.
  - inversion H; subst. cbn zeta. exists [].
    assert (W : wanted vis (less mx n) [] = []).
    { unfold wanted, first_of. destruct vis; [ | reflexivity]. destruct (less mx n);
        [apply firstn_nil | reflexivity]. }
    rewrite W. cbn [combine length]. rewrite app_nil_r.
    split; [reflexivity | ]. split; [reflexivity | ]. split; [exact NP | ]. split; [exact OW | ].
    split; [reflexivity | ]. split; [reflexivity | ]. split; [tauto | ]. split; [constructor | ].
      split; [intros _ k ? ? X; destruct k; discriminate | ].
      split; [intros _ k ? ? ? X; destruct k; discriminate | ].
      split; [reflexivity | intros k ? ? X; destruct k; discriminate].
  - destruct ((match mx with Some k => Z.leb k n | None => false end) || negb vis) eqn:ST.
    { inversion H; subst. cbn zeta. exists []. rewrite (wanted_stop _ _ _ _ ST).
      cbn [combine length]. rewrite app_nil_r.
      split; [reflexivity | ]. split; [reflexivity | ]. split; [exact NP | ]. split; [exact OW | ].
      split; [reflexivity | ]. split; [reflexivity | ]. split; [tauto | ]. split; [constructor | ].
      split; [intros _ k ? ? X; destruct k; discriminate | ].
      split; [intros _ k ? ? ? X; destruct k; discriminate | ].
      split; [reflexivity | intros k ? ? X; destruct k; discriminate]. }
    rewrite (wanted_go _ _ _ _ _ ST). cbn zeta.
    set (D := wanted vis (less mx (n + 1)) q) in *.
    inversion N as [ | a b NC NQ]; subst a b.
    assert (NCA : ~ In c (map fst (aos s))) by (apply NA; left; reflexivity).
    (* the entry of c *)
    assert (X : exists e prev1 s1,
      (match look c prev, reuse with
       | Some e, true => (e, del c prev, s)
       | _, _ => let '(e, s') := call_method m c s in (e, prev, s')
       end) = (e, prev1, s1) /\
      owns (obs_of prev1 ++ obs_of (aos s) ++ en_obs e) s1 /\
      NoDup (map fst prev1) /\ Forall (fun x => made m (fst x) (snd x)) prev1 /\
      made m c e /\ (reuse = false -> made_at m (calls s) c e /\ calls s1 = S (calls s)) /\
      (reuse = true -> forall e0, look c prev = Some e0 -> e = e0) /\
      (forall d e0, d <> c -> look d prev1 = Some e0 <-> look d prev = Some e0) /\
      (forall n, In (Alien n) (shown s1) <-> In (Alien n) (shown s)) /\
      on s1 = on s /\ title s1 = title s /\ aos s1 = aos s /\ attr s1 = attr s).
    { destruct (match look c prev with Some _ => reuse | None => false end) eqn:U.
      - destruct (look c prev) as [e | ] eqn:L; [ | discriminate]. subst reuse.
        exists e, (del c prev), s. split; [reflexivity | ].
        destruct (del_split c prev e NP L) as (l1 & l2 & E1 & E2).
        rewrite E2. subst prev. rewrite map_app in NP. cbn [map fst] in NP.
        assert (NP' : NoDup (map fst (l1 ++ l2))).
        { rewrite map_app. eapply NoDup_remove_1. exact NP. }
        split; [ | split; [exact NP' | split; [ | split; [ | split; [discriminate | ]]]]].
        + eapply owns_perm; [ | | exact OW].
          * destruct OW as (OW & _). rewrite obs_of_app in OW. cbn [obs_of flat_map snd] in OW.
            rewrite obs_of_app. change (flat_map (fun x => en_obs (snd x)) l2) with (obs_of l2) in OW.
            rewrite !nodup_app in *. setoid_rewrite in_app_iff.
            repeat setoid_rewrite in_app_iff in OW. intuition eauto 4.
          * intros o. rewrite !obs_of_app. cbn [obs_of flat_map snd].
            rewrite !in_app_iff. tauto.
        + apply Forall_app in MA as (MA1 & MA2). inversion MA2; subst.
          apply Forall_app. split; assumption.
        + apply Forall_app in MA as (MA1 & MA2). inversion MA2; subst. assumption.
        + split; [intros _ e0 Y; inversion Y; reflexivity | ].
          split; [ | split; [intros; reflexivity | repeat split]].
          intros d e0 ND. clear - ND. unfold look. induction l1 as [ | (a, b) l1 IH]; cbn [app find fst].
          * apply Nat.eqb_neq in ND. rewrite ND. reflexivity.
          * destruct (Nat.eqb d a); [reflexivity | exact IH].
      - destruct (call_method m c s) as (e, s1) eqn:CM.
        destruct (call_spec m c s e s1 _ M CM OW) as (C1 & C2 & C3 & C4 & C5 & C6 & C7 & C8).
        exists e, prev, s1. split.
        { destruct (look c prev); [subst reuse | ]; reflexivity. }
        rewrite <- app_assoc in C1. split; [exact C1 | ].
        split; [exact NP | ]. split; [exact MA | ]. split; [eexists; exact C2 | ].
        split; [intros _; split; assumption | ].
        split; [intros R e0 Y; rewrite Y in U; congruence | ].
        split; [tauto | ]. split; [exact C4 | repeat split; assumption]. }
    destruct X as (e & prev1 & s1 & X1 & X2 & X3 & X4 & X5 & X6 & X7 & X8 & X9 & XA & XB & XC & XD).
    rewrite X1 in H. clear X1. rewrite XC in H. rewrite (put_new _ _ _ NCA) in H.
    match type of H with loop _ _ _ _ _ _ _ _ _ _ ?S = _ => set (s3 := S) in * end.
    destruct (place_rest (pl cur) (en_obs e) (set_aos (aos s ++ [(c, e)]) s1))
      as (R1 & R2 & R3 & R4 & R5 & R6). fold s3 in R1, R2, R3, R4, R5, R6.
    cbn [set_aos on title aos shown next calls] in R1, R2, R3, R4, R5, R6.
    assert (OW3 : owns (obs_of prev1 ++ obs_of (aos s3)) s3).
    { rewrite R3, obs_of_app. cbn [obs_of flat_map snd]. rewrite app_nil_r.
      subst s3. apply owns_place. destruct X2 as (Y1 & Y2 & Y3). split; [exact Y1 | split; assumption]. }
    specialize (IH (n + 1)%Z (mv e cur) prev1 s3 prev' s' H NQ X3).
    rewrite R3 in IH.
    destruct IH as (ents & I1 & I2 & I3 & I4 & I5 & I6 & I7 & I8 & I9 & IA & IB & IC).
    { intros d P. rewrite map_app, in_app_iff. cbn. intros [Y | [Y | []]].
      - exact (NA d (or_intror P) Y).
      - subst d. contradiction. }
    { rewrite <- R3. exact OW3. }
    { exact X4. }
    fold D in I1, I2, I8, I9, IA. exists (e :: ents).
    assert (NDA : NoDup (obs_of (aos s) ++ en_obs e)).
    { destruct X2 as (Y & _). apply nodup_app in Y as (_ & Y & _). exact Y. }
    apply nodup_app in NDA as (_ & NDE & DIS).
    split; [cbn; congruence | ].
    split; [rewrite I2; cbn [combine]; rewrite <- app_assoc; reflexivity | ].
    split; [exact I3 | ]. split; [exact I4 | ].
    split; [congruence | ]. split; [congruence | ].
    split; [intros k; rewrite I7, R4; apply X9 | ].
    split; [constructor; assumption | ].
    split; [ | split; [ | split]].
    + intros RF k d e1 P1 P2. destruct (X6 RF) as (Y1 & Y2). destruct k as [ | k]; cbn in P1, P2.
      * inversion P1; inversion P2; subst d e1. rewrite Nat.add_0_r. exact Y1.
      * pose proof (I9 RF k d e1 P1 P2) as Y. rewrite R6, Y2 in Y.
        replace (calls s + S k)%nat with (S (calls s) + k)%nat by lia. exact Y.
    + intros RT k d e1 e0 P1 P2 L. destruct k as [ | k]; cbn in P1, P2.
      * inversion P1; inversion P2; subst d e1. exact (X7 RT e0 L).
      * apply (IA RT k d e1 e0 P1 P2). apply X8; [ | exact L].
        intros ->. apply NC. eapply wanted_in. eapply nth_error_In. exact P1.
    + intros o P. rewrite IB.
      * subst s3. rewrite place_out; [cbn; rewrite XD; reflexivity | ].
        apply DIS. exact P.
      * rewrite obs_of_app, in_app_iff. left. exact P.
    + intros k e1 o P1 P2. destruct k as [ | k]; cbn in P1.
      * inversion P1; subst e1. cbn [firstn past fold_left]. rewrite IB.
        -- subst s3. rewrite (place_in _ _ _ _ NDE P2). eexists. reflexivity.
        -- rewrite obs_of_app, in_app_iff. right. cbn. rewrite app_nil_r. exact P2.
      * cbn [firstn past fold_left]. exact (IC k e1 o P1 P2).
Qed.
End Loop.

(* ---------- statements ---------- *)

(* how much the components before it displace a component *)
Definition total (d : dims -> Q -> Q) (t : Q) (l : list ent) : Q :=
  fold_right (fun e r => d (en_dim e) t + r) 0 l.

(* where an object of the component that comes after those of l is to be: next to
   them in the given direction, or that far along the trajectory *)
Definition stands2 (f : frame2) (l : list ent) (p : attrs) : Prop :=
  let '(x, y, _) := p in
  let x0 := f_x f + f_ax f in
  let y0 := f_y f + f_ay f in
  match f_traj f with
  | None =>
      match f_dir f with
      | DirE => x == x0 + total d_x (f_t f) l /\ y == y0
      | DirW => x == x0 - total d_x (f_t f) l /\ y == y0
      | DirN => x == x0 /\ y == y0 + total d_y (f_t f) l
      | DirS => x == x0 /\ y == y0 - total d_y (f_t f) l
      | Bad2 => x == x0 /\ y == y0
      end
  | Some tr =>
      exists u, u == f_ax f + total d_x (f_t f) l /\
      p = (f_x f + fst (fst (tr u)), f_y f + snd (fst (tr u)), snd (tr u))
  end.

Definition stands3 (f : frame3) (l : list ent) (p : attrs) : Prop :=
  let '(x, y, z) := p in
  let dx := total d_x (g_t f) l in
  let dy := total d_y (g_t f) l in
  let dz := total d_z (g_t f) l in
  match g_dir f with
  | Xp => x == g_x f + dx /\ y == g_y f /\ z == g_z f
  | Xm => x == g_x f - dx /\ y == g_y f /\ z == g_z f
  | Yp => x == g_x f /\ y == g_y f + dy /\ z == g_z f
  | Ym => x == g_x f /\ y == g_y f - dy /\ z == g_z f
  | Zp => x == g_x f /\ y == g_y f /\ z == g_z f + dz
  | Zm => x == g_x f /\ y == g_y f /\ z == g_z f - dz
  | Bad3 => False
  end.

Lemma past2 f l : forall x y z,
  let '(x', y', _) := past (mv2 f) l (x, y, z) in
  match f_traj f with
  | None =>
      match f_dir f with
      | DirE => x' == x + total d_x (f_t f) l /\ y' == y
      | DirW => x' == x - total d_x (f_t f) l /\ y' == y
      | DirN => x' == x /\ y' == y + total d_y (f_t f) l
      | DirS => x' == x /\ y' == y - total d_y (f_t f) l
      | Bad2 => x' == x /\ y' == y
      end
  | Some _ => x' == x + total d_x (f_t f) l
  end.
Proof.
  unfold past. induction l as [ | e l IH]; intros x y z; cbn [fold_left total fold_right].
  - destruct (f_traj f); [ring | destruct (f_dir f); split; ring].
  - fold (total d_x (f_t f) l). fold (total d_y (f_t f) l).
    destruct (mv2 f e (x, y, z)) as ((x1, y1), z1) eqn:E.
    specialize (IH x1 y1 z1).
    destruct (fold_left (fun p e => mv2 f e p) l (x1, y1, z1)) as ((x2, y2), z2).
    unfold mv2 in E.
    destruct (f_traj f); [ | destruct (f_dir f)]; inversion E; subst;
      try (destruct IH as (A & B); rewrite A, B; split; ring).
    rewrite IH. ring.
Qed.

Lemma past3 f l : g_dir f <> Bad3 -> stands3 f l (past (mv3 f) l (g_x f, g_y f, g_z f)).
Proof.
  intros NB. unfold past.
  assert (G : forall x y z,
    let '(x', y', z') := fold_left (fun p e => mv3 f e p) l (x, y, z) in
    match g_dir f with
    | Xp => x' == x + total d_x (g_t f) l /\ y' == y /\ z' == z
    | Xm => x' == x - total d_x (g_t f) l /\ y' == y /\ z' == z
    | Yp => x' == x /\ y' == y + total d_y (g_t f) l /\ z' == z
    | Ym => x' == x /\ y' == y - total d_y (g_t f) l /\ z' == z
    | Zp => x' == x /\ y' == y /\ z' == z + total d_z (g_t f) l
    | Zm => x' == x /\ y' == y /\ z' == z - total d_z (g_t f) l
    | Bad3 => True
    end).
  { induction l as [ | e l IH]; intros x y z; cbn [fold_left total fold_right].
    - destruct (g_dir f); repeat split; ring.
    - fold (total d_x (g_t f) l). fold (total d_y (g_t f) l). fold (total d_z (g_t f) l).
      destruct (mv3 f e (x, y, z)) as ((x1, y1), z1) eqn:E.
      specialize (IH x1 y1 z1).
      destruct (fold_left (fun p e => mv3 f e p) l (x1, y1, z1)) as ((x2, y2), z2).
      unfold mv3 in E. destruct (g_dir f); inversion E; subst; [ | | | | | | exact I];
        destruct IH as (A & B & C); rewrite A, B, C; repeat split; ring. }
  specialize (G (g_x f) (g_y f) (g_z f)). unfold stands3.
  destruct (fold_left (fun p e => mv3 f e p) l (g_x f, g_y f, g_z f)) as ((x, y), z).
  destruct (g_dir f); [exact G .. | contradiction].
Qed.

(* ---------- executions ---------- *)

(* any sequence of frames (with any values of the attributes and any contents of
   the queue, in which a component is at most once), of calls of remove, and of
   calls of show for an AnimateQueue that has been removed *)
Inductive run2 (m : method) : st -> Prop :=
| r2_new l a : run2 m (new2 l a)
| r2_frame f s : run2 m s -> NoDup (f_q f) -> run2 m (tick2 m f s)
| r2_remove s : run2 m s -> run2 m (remove2 s)
| r2_show s : run2 m s -> on s = false -> run2 m (show2 s)
| r2_alien b k s : run2 m s -> run2 m (alien b k s).

(* the same for Animate3dQueue, with valid directions; show only if it is shown *)
Inductive run3 (m : method) : st -> Prop :=
| r3_new l a : run3 m (new3 l a)
| r3_frame f s : run3 m s -> NoDup (g_q f) -> g_dir f <> Bad3 -> run3 m (fst (tick3 m f s))
| r3_remove s : run3 m s -> run3 m (remove3 s)
| r3_show s : run3 m s -> on s = true -> run3 m (show3 s)
| r3_alien b k s : run3 m s -> run3 m (alien b k s).

Definition good (m : method) (s : st) : Prop :=
  if on s then
    NoDup (map fst (aos s)) /\ owns (obs_of (aos s)) s /\
    Forall (fun x => made m (fst x) (snd x)) (aos s)
  else owns [] s /\ Forall (fun o => exists n, o = Own n) (obs_of (aos s)).

Lemma good_own m s : good m s -> Forall (fun o => exists n, o = Own n) (obs_of (aos s)).
Proof.
  unfold good. destruct (on s); [ | tauto]. intros (_ & (_ & A & _) & _).
  eapply Forall_impl; [ | exact A]. cbn. intros o (n & E & _). exists n. exact E.
Qed.

Lemma owns_hide l k s : owns (k ++ l) s -> owns l (hide_all k s).
Proof.
  intros (A & B & C). destruct (hide_all_rest k s) as (_ & _ & _ & _ & E & _).
  apply nodup_app in A as (A1 & A2 & A3). split; [exact A2 | ]. split.
  - rewrite E. apply Forall_app in B as (_ & B). exact B.
  - intros n. rewrite hide_all_shown, C, in_app_iff. split.
    + tauto.
    + intros H. split; [right; exact H | ]. intros X. exact (A3 _ X H).
Qed.

Lemma good_alien m b k s : good m s -> good m (alien b k s).
Proof.
  unfold good. intros H.
  assert (E : on (alien b k s) = on s /\ aos (alien b k s) = aos s /\ next (alien b k s) = next s /\
    (forall n, In (Own n) (shown (alien b k s)) <-> In (Own n) (shown s))).
  { destruct b; cbn; repeat split; intros X.
    - apply in_add_ob in X as [X | X]; [exact X | discriminate].
    - apply in_add_ob. left. exact X.
    - apply filter_In in X. tauto.
    - apply filter_In. split; [exact X | reflexivity]. }
  destruct E as (E1 & E2 & E3 & E4). rewrite E1, E2.
  assert (W : forall l, owns l s -> owns l (alien b k s)).
  { intros l (A & B & C). split; [exact A | ]. split; [rewrite E3; exact B | ].
    intros n. rewrite E4. apply C. }
  destruct (on s); [destruct H as (A & B & C); auto | destruct H as (A & B); auto].
Qed.

Lemma less_0 mx : less mx 0 = mx.
Proof. destruct mx; cbn; [rewrite Z.sub_0_r | ]; reflexivity. Qed.

(* one frame, for both kinds *)
Lemma frame_good m vis mx reuse mv pl q cur s prev' s1 :
  creates m -> good m s -> on s = true -> NoDup q ->
  loop m vis mx reuse mv pl 0 q cur (aos s) (set_aos [] s) = (prev', s1) ->
  let s' := hide_all (obs_of prev') s1 in
  let D := wanted vis mx q in
  good m s' /\ on s' = true /\ title s' = title s /\
  exists ents, length ents = length D /\ aos s' = combine D ents /\
    Forall2 (made m) D ents /\
    (reuse = false -> forall k c e, nth_error D k = Some c -> nth_error ents k = Some e ->
       made_at m (calls s + k) c e) /\
    (reuse = true -> forall k c e e0, nth_error D k = Some c -> nth_error ents k = Some e ->
       look c (aos s) = Some e0 -> e = e0) /\
    NoDup (flat_map en_obs ents) /\
    (forall n, In (Own n) (shown s') <-> In (Own n) (flat_map en_obs ents)) /\
    (forall o, In o (flat_map en_obs ents) -> In o (shown s')) /\
    (forall n, In (Alien n) (shown s') <-> In (Alien n) (shown s)) /\
    (forall k e o, nth_error ents k = Some e -> In o (en_obs e) ->
       exists old, attr s' o = pl (past mv (firstn k ents) cur) old).
Proof.
  intros M G ON N H. unfold good in G. rewrite ON in G. destruct G as (G1 & G2 & G3).
  pose proof (loop_spec m M vis mx reuse mv pl q 0 cur (aos s) (set_aos [] s) prev' s1 H N G1) as L.
  rewrite less_0 in L. cbn zeta in L. cbn [set_aos aos on title calls shown attr] in L.
  cbn [obs_of flat_map app] in L. rewrite app_nil_r in L.
  destruct L as (ents & L1 & L2 & L3 & L4 & L5 & L6 & L7 & L8 & L9 & LA & _ & LC).
  { intros c _ []. }
  { destruct G2 as (A & B & C). split; [exact A | split; assumption]. }
  { exact G3. }
  cbn zeta. set (D := wanted vis mx q) in *.
  destruct (hide_all_rest (obs_of prev') s1) as (R1 & R2 & R3 & R4 & R5 & R6).
  assert (Y : Forall (fun o => exists n, o = Own n /\ (n < next s1)%nat) (obs_of prev')).
  { destruct L4 as (_ & Y & _). apply Forall_app in Y. tauto. }
  apply owns_hide in L4. rewrite L2 in L4.
  assert (EO : forall (D : list nat) (ents : list ent), length ents = length D ->
    obs_of (combine D ents) = flat_map en_obs ents).
  { intros D0. induction D0 as [ | d D0 IH]; intros [ | e es] E; try discriminate; [reflexivity | ].
    unfold obs_of in *. cbn [combine flat_map snd]. f_equal. apply IH. cbn in E. congruence. }
  assert (EF : forall (D : list nat) (ents : list ent), length ents = length D ->
    map fst (combine D ents) = D).
  { intros D0. induction D0 as [ | d D0 IH]; intros [ | e es] E; try discriminate; [reflexivity | ].
    cbn [combine map fst]. f_equal. apply IH. cbn in E. congruence. }
  assert (ND : NoDup D).
  { subst D. unfold wanted, first_of. destruct vis; [ | constructor]. destruct mx as [k | ]; [ | exact N].
    rewrite <- (firstn_skipn (Z.to_nat k) q) in N. apply nodup_app in N. tauto. }
  assert (ON' : on (hide_all (obs_of prev') s1) = true) by congruence.
  split; [ | split; [exact ON' | split; [congruence | ]]].
  - unfold good. rewrite ON', R3, L2. rewrite (EF _ _ L1). split; [exact ND | ]. split; [exact L4 | ].
    clear - L8. induction L8; cbn; constructor; auto.
  - exists ents. rewrite R3, R4. rewrite (EO _ _ L1) in L4. destruct L4 as (O1 & O2 & O3).
    split; [exact L1 | ]. split; [exact L2 | ]. split; [exact L8 | ]. split; [exact L9 | ].
    split; [exact LA | ]. split; [exact O1 | ]. split; [exact O3 | ].
    split.
    + intros o P. rewrite Forall_forall in O2. destruct (O2 o P) as (n & -> & _). apply O3. exact P.
    + split; [ | exact LC]. intros n. rewrite hide_all_shown, L7. split; [tauto | ].
      intros P. split; [exact P | ]. intros X.
      rewrite Forall_forall in Y. destruct (Y _ X) as (? & ? & _). discriminate.
Qed.

Lemma owns_nil s : owns [] s <-> forall n, ~ In (Own n) (shown s).
Proof.
  split.
  - intros (_ & _ & C) n H. apply C in H. destruct H.
  - intros H. split; [constructor | ]. split; [constructor | ]. intros n. split; [ | intros []].
    intros X. exact (H n X).
Qed.

Lemma hide_aos m s : good m s -> forall n, ~ In (Own n) (shown (hide_all (obs_of (aos s)) s)).
Proof.
  intros G n H. apply hide_all_shown in H as (A & B). unfold good in G. destruct (on s).
  - destruct G as (_ & (_ & _ & C) & _). apply B. apply C. exact A.
  - exact (proj1 (owns_nil s) (proj1 G) n A).
Qed.

Lemma remove2_good m s : good m s -> good m (remove2 s) /\ on (remove2 s) = false /\
  title (remove2 s) = false.
Proof.
  intros G. unfold remove2.
  destruct (hide_all_rest (obs_of (aos s)) (set_title false (set_on false s)))
    as (R1 & R2 & R3 & _). cbn in R1, R2, R3. split; [ | split; assumption].
  unfold good. rewrite R1, R3. split; [ | exact (good_own m s G)]. apply owns_nil. intros n H. apply hide_all_shown in H.
  apply (hide_aos m s G n). apply hide_all_shown. exact H.
Qed.

Lemma remove3_good m s : good m s -> good m (remove3 s) /\ on (remove3 s) = false.
Proof.
  intros G. split; [ | reflexivity]. unfold good. cbn [remove3 set_on on aos].
  destruct (hide_all_rest (obs_of (aos s)) s) as (_ & _ & R3 & _). rewrite R3.
  split; [ | exact (good_own m s G)].
  apply owns_nil. intros n H. exact (hide_aos m s G n H).
Qed.

Lemma nodup_rev (b : bool) (q : list nat) : NoDup q -> NoDup (if b then rev q else q).
Proof. intros N. destruct b; [apply NoDup_rev | ]; exact N. Qed.

Lemma update2_loop m f s : f_keep f = true ->
  exists prev' s1 x y,
    loop m (f_visible f) (f_max f) (f_scaled f) (mv2 f) (pl2 f) 0
      (if f_reverse f then rev (f_q f) else f_q f) (x + f_ax f, y + f_ay f, 0) (aos s) (set_aos [] s)
      = (prev', s1) /\
    update2 m f s = hide_all (obs_of prev') s1 /\
    (x, y) = match f_traj f with None => (f_x f, f_y f) | Some _ => (0, 0) end.
Proof.
  intros K. unfold update2. rewrite K. cbn [negb].
  destruct (match f_traj f with None => (f_x f, f_y f) | Some _ => (0, 0) end) as (x, y).
  destruct (loop m (f_visible f) (f_max f) (f_scaled f) (mv2 f) (pl2 f) 0
      (if f_reverse f then rev (f_q f) else f_q f) (x + f_ax f, y + f_ay f, 0) (aos s) (set_aos [] s))
    as (prev', s1) eqn:L.
  exists prev', s1, x, y. split; [exact L | ]. split; reflexivity.
Qed.

Lemma update3_loop m f s : g_keep f = true -> g_dir f <> Bad3 ->
  exists prev' s1,
    loop m true (g_max f) true (mv3 f) pl3 0
      (if g_reverse f then rev (g_q f) else g_q f) (g_x f, g_y f, g_z f) (aos s) (set_aos [] s)
      = (prev', s1) /\
    update3 m f s = (hide_all (obs_of prev') s1, false).
Proof.
  intros K D. unfold update3. rewrite K. cbn [negb].
  destruct (loop m true (g_max f) true (mv3 f) pl3 0
      (if g_reverse f then rev (g_q f) else g_q f) (g_x f, g_y f, g_z f) (aos s) (set_aos [] s))
    as (prev', s1) eqn:L.
  exists prev', s1. split; [reflexivity | ]. destruct (g_dir f); [reflexivity .. | contradiction].
Qed.

Lemma run2_good m s : creates m -> run2 m s -> good m s /\ title s = on s.
Proof.
  intros M R. induction R as [l a | f s R (IH & T) N | s R (IH & T) | s R (IH & T) O | b k s R (IH & T)].
  - split; [ | reflexivity]. cbn. split; [constructor | ]. split; [ | constructor].
    apply owns_nil. cbn. intros n H. apply in_map_iff in H as (x & A & _). discriminate.
  - unfold tick2. destruct (on s) eqn:O; [ | split; congruence].
    destruct (f_keep f) eqn:K.
    + destruct (update2_loop m f s K) as (prev' & s1 & x & y & L & E & _). rewrite E.
      destruct (frame_good m _ _ _ _ _ _ _ s prev' s1 M IH O (nodup_rev (f_reverse f) _ N) L)
        as (G & G1 & G2 & _).
      split; [exact G | congruence].
    + unfold update2. rewrite K. cbn [negb].
      destruct (remove2_good m s IH) as (A & B & C). split; [exact A | congruence].
  - destruct (remove2_good m s IH) as (A & B & C). split; [exact A | congruence].
  - split; [ | reflexivity]. unfold good in *. rewrite O in IH. cbn [show2 set_aos set_on on aos].
    split; [constructor | ]. split; [ | constructor]. apply owns_nil. cbn.
    apply owns_nil. exact (proj1 IH).
  - split; [apply good_alien; exact IH | ]. destruct b; exact T.
Qed.

Lemma run3_good m s : creates m -> run3 m s -> good m s.
Proof.
  intros M R. induction R as [l a | f s R IH N D | s R IH | s R IH O | b k s R IH].
  - cbn. split; [constructor | ]. split; [ | constructor].
    apply owns_nil. cbn. intros n H. apply in_map_iff in H as (x & A & _). discriminate.
  - unfold tick3. destruct (on s) eqn:O; [ | exact IH].
    destruct (g_keep f) eqn:K.
    + destruct (update3_loop m f s K D) as (prev' & s1 & L & E). rewrite E. cbn [fst].
      destruct (frame_good m _ _ _ _ _ _ _ s prev' s1 M IH O (nodup_rev (g_reverse f) _ N) L)
        as (G & _).
      exact G.
    + unfold update3. rewrite K. cbn [negb fst]. apply (remove3_good m s IH).
  - apply (remove3_good m s IH).
  - unfold good in *. rewrite O in IH. cbn [show3 set_on on aos]. exact IH.
  - apply good_alien. exact IH.
Qed.

(* ---------- C81 ---------- *)

(* The components of which an AnimateQueue shows the objects. *)
Definition wanted2 (f : frame2) : list nat :=
  wanted (f_visible f) (f_max f) (if f_reverse f then rev (f_q f) else f_q f).
Definition wanted3 (f : frame3) : list nat :=
  wanted true (g_max f) (if g_reverse f then rev (g_q f) else g_q f).

(* A frame, after any history: the objects of this AnimateQueue on the screen are
   exactly those of the wanted components, as returned by a call of their
   animation_objects (in this frame, if the scale has not changed), each at its
   place after the components before it; the objects of others are as before. *)
Theorem C81_frame m s f :
  creates m -> run2 m s -> on s = true -> f_keep f = true -> NoDup (f_q f) ->
  let s' := tick2 m f s in
  on s' = true /\ title s' = true /\
  exists ents, Forall2 (made m) (wanted2 f) ents /\
    (f_scaled f = false -> forall k c e, nth_error (wanted2 f) k = Some c ->
       nth_error ents k = Some e -> made_at m (calls s + k) c e) /\
    NoDup (flat_map en_obs ents) /\
    (forall n, In (Own n) (shown s') <-> In (Own n) (flat_map en_obs ents)) /\
    (forall o, In o (flat_map en_obs ents) -> In o (shown s')) /\
    (forall n, In (Alien n) (shown s') <-> In (Alien n) (shown s)) /\
    (forall k e o, nth_error ents k = Some e -> In o (en_obs e) ->
       stands2 f (firstn k ents) (attr s' o)).
Proof.
  intros M R O K N. cbn zeta. unfold tick2. rewrite O.
  destruct (run2_good m s M R) as (G & T).
  destruct (update2_loop m f s K) as (prev' & s1 & x & y & L & E & XY). rewrite E.
  destruct (frame_good m _ _ _ _ _ _ _ s prev' s1 M G O (nodup_rev (f_reverse f) _ N) L)
    as (_ & G1 & G2 & ents & A & _ & B & C & _ & D1 & D2 & D3 & D4 & D5).
  split; [exact G1 | ]. split; [congruence | ].
  exists ents. unfold wanted2.
  split; [exact B | ]. split; [exact C | ]. split; [exact D1 | ]. split; [exact D2 | ].
  split; [exact D3 | ]. split; [exact D4 | ].
  intros k e o P1 P2. destruct (D5 k e o P1 P2) as (old & ->).
  pose proof (past2 f (firstn k ents) (x + f_ax f) (y + f_ay f) 0) as PS.
  destruct (past (mv2 f) (firstn k ents) (x + f_ax f, y + f_ay f, 0)) as ((px, py), pz).
  unfold stands2, pl2. destruct (f_traj f) as [tr | ].
  - inversion XY; subst.
    destruct (tr (px * 1)) as ((a, b), ang) eqn:TR. exists (px * 1). split.
    + rewrite PS. ring.
    + rewrite TR. reflexivity.
  - inversion XY; subst. destruct (f_dir f); exact PS.
Qed.

(* Once it has been removed, by remove() or because keep is False, nothing of it is
   on the screen, whatever happens after, until show() is called. *)
Theorem C81_removed m s :
  creates m -> run2 m s -> on s = false ->
  title s = false /\ (forall n, ~ In (Own n) (shown s)) /\ forall f, tick2 m f s = s.
Proof.
  intros M R O. destruct (run2_good m s M R) as (G & T). unfold good in G. rewrite O in G.
  split; [congruence | ]. split; [apply owns_nil; exact (proj1 G) | ].
  intros f. unfold tick2. rewrite O. reflexivity.
Qed.

Theorem C81_remove m s f :
  creates m -> run2 m s -> f_keep f = false ->
  on (remove2 s) = false /\ on (tick2 m f s) = false /\
  (forall n, In (Alien n) (shown (remove2 s)) <-> In (Alien n) (shown s)).
Proof.
  intros M R K. destruct (run2_good m s M R) as (G & T).
  destruct (remove2_good m s G) as (A & B & C). split; [exact B | ]. split.
  - unfold tick2. destruct (on s) eqn:O; [ | exact O]. unfold update2. rewrite K. exact B.
  - intros n. unfold remove2. rewrite hide_all_shown. cbn. split; [tauto | ].
    intros H. split; [exact H | ]. intros X.
    pose proof (good_own m s G) as F. rewrite Forall_forall in F. destruct (F _ X). discriminate.
Qed.

(* The same for Animate3dQueue; here a component that is still shown keeps the
   objects it had. *)
Theorem C81_frame_3d m s f :
  creates m -> run3 m s -> on s = true -> g_keep f = true -> NoDup (g_q f) -> g_dir f <> Bad3 ->
  let s' := fst (tick3 m f s) in
  on s' = true /\ snd (tick3 m f s) = false /\
  exists ents, Forall2 (made m) (wanted3 f) ents /\
    (forall k c e, nth_error (wanted3 f) k = Some c -> nth_error ents k = Some e ->
       look c (aos s') = Some e /\ (forall e0, look c (aos s) = Some e0 -> e = e0)) /\
    NoDup (flat_map en_obs ents) /\
    (forall n, In (Own n) (shown s') <-> In (Own n) (flat_map en_obs ents)) /\
    (forall o, In o (flat_map en_obs ents) -> In o (shown s')) /\
    (forall n, In (Alien n) (shown s') <-> In (Alien n) (shown s)) /\
    (forall k e o, nth_error ents k = Some e -> In o (en_obs e) ->
       stands3 f (firstn k ents) (attr s' o)).
Proof.
  intros M R O K N NB. cbn zeta. unfold tick3. rewrite O.
  pose proof (run3_good m s M R) as G.
  destruct (update3_loop m f s K NB) as (prev' & s1 & L & E). rewrite E. cbn [fst snd].
  destruct (frame_good m _ _ _ _ _ _ _ s prev' s1 M G O (nodup_rev (g_reverse f) _ N) L)
    as (GG & G1 & _ & ents & A & A' & B & _ & C & D1 & D2 & D3 & D4 & D5).
  split; [exact G1 | ]. split; [reflexivity | ].
  exists ents. unfold wanted3.
  split; [exact B | ]. split; [ | split; [exact D1 | ]; split; [exact D2 | ];
    split; [exact D3 | ]; split; [exact D4 | ]].
  - intros k c e P1 P2. split; [ | intros e0 P3; exact (C eq_refl k c e e0 P1 P2 P3)].
    unfold good in GG. rewrite G1 in GG. destruct GG as (ND & _). rewrite A' in *.
    assert (I1 : In (c, e) (combine (wanted true (g_max f) (if g_reverse f then rev (g_q f) else g_q f)) ents)).
    { clear - P1 P2. revert k P1 P2.
      generalize (wanted true (g_max f) (if g_reverse f then rev (g_q f) else g_q f)) as D.
      intros D. revert ents. induction D as [ | d D IH]; intros [ | x es] [ | k] P1 P2; try discriminate.
      - inversion P1; inversion P2; subst. left. reflexivity.
      - right. exact (IH es k P1 P2). }
    destruct (look c (combine (wanted true (g_max f) (if g_reverse f then rev (g_q f) else g_q f)) ents))
      as [e1 | ] eqn:LK.
    + apply look_in in LK. f_equal.
      clear - ND I1 LK. revert ND I1 LK.
      generalize (combine (wanted true (g_max f) (if g_reverse f then rev (g_q f) else g_q f)) ents) as D.
      induction D as [ | (d, x) D IH]; intros ND I1 LK; [destruct I1 | ]. cbn in ND.
      inversion ND as [ | ? ? N1 N2]; subst. destruct I1 as [I1 | I1], LK as [LK | LK].
      * congruence.
      * inversion I1; subst. exfalso. apply N1. apply (in_map fst) in LK. exact LK.
      * inversion LK; subst. exfalso. apply N1. apply (in_map fst) in I1. exact I1.
      * auto.
    + apply look_none in LK. exfalso. apply LK. apply (in_map fst) in I1. exact I1.
  - intros k e o P1 P2. destruct (D5 k e o P1 P2) as (old & ->). unfold pl3. apply past3. exact NB.
Qed.

Theorem C81_removed_3d m s :
  creates m -> run3 m s ->
  (on s = false -> (forall n, ~ In (Own n) (shown s)) /\ forall f, tick3 m f s = (s, false)) /\
  on (remove3 s) = false /\
  (forall f, g_keep f = false -> on (fst (tick3 m f s)) = false).
Proof.
  intros M R. pose proof (run3_good m s M R) as G. split; [ | split; [reflexivity | ]].
  - intros O. unfold good in G. rewrite O in G. split; [apply owns_nil; exact (proj1 G) | ].
    intros f. unfold tick3. rewrite O. reflexivity.
  - intros f K. unfold tick3. destruct (on s) eqn:O; [ | exact O].
    unfold update3. rewrite K. reflexivity.
Qed.

(* ---------- what does not hold ---------- *)

Definition cst (a : Q) : Q -> Q := fun _ => a.
Definition box : dims := Dims (cst 50) (cst 50) (cst 1).

(* the default of animation_objects (7224-7257): one object (with its text), 50 by 50 *)
Definition default : method := fun _ _ => (box, [None]).

(* a component that makes its object in the first call and returns it again in
   later calls *)
Definition thrifty : method := fun _ k => (box, [match k with O => None | S _ => Some (Own 0) end]).

Definition flat : oid -> attrs := fun _ => (0, 0, 0).
Definition fr (q : list nat) (scaled : bool) : frame2 :=
  F2 0 true true None DirW false 100 200 0 0 None scaled q.
Definition fr3 (d : dir3) (q : list nat) : frame3 := F3 0 true None d false 0 0 0 q.

Ltac conj := repeat match goal with |- _ /\ _ => split end.

Lemma nd1 (c : nat) : NoDup [c].
Proof. constructor; [intros [] | constructor]. Qed.
Lemma nd2 : NoDup [7; 8]%nat.
Proof. constructor; [intros [X | []]; discriminate | apply nd1]. Qed.

(* A component of which animation_objects returns the same objects again is not
   visible from its second frame on: they are removed at the end of the frame, as
   objects of the previous one. *)
Theorem C81_same_objects_refuted :
  exists m s f c o, run2 m s /\ on s = true /\ f_keep f = true /\ f_visible f = true /\
    f_q f = [c] /\ f_scaled f = false /\ snd (m c (calls s)) = [Some o] /\
    In o (shown s) /\ shown (tick2 m f s) = [].
Proof.
  exists thrifty, (tick2 thrifty (fr [7%nat] false) (new2 [] flat)), (fr [7%nat] false), 7%nat, (Own 0).
  conj; try (vm_compute; tauto); try reflexivity.
  apply r2_frame; [apply r2_new | apply nd1].
Qed.

(* The comment at 18363 says that the objects are made again if the scale has
   changed.  It is the other way round: in a frame in which the scale has changed
   they are not, and in all other frames they are. *)
Theorem C81_rerender_refuted :
  exists m s f f' c, creates m /\ run2 m s /\ on s = true /\ wanted2 f = [c] /\ wanted2 f' = [c] /\
    look c (aos s) <> None /\
    f_scaled f = true /\ calls (tick2 m f s) = calls s /\
    f_scaled f' = false /\ calls (tick2 m f' s) = S (calls s).
Proof.
  exists default, (tick2 default (fr [7%nat] false) (new2 [] flat)), (fr [7%nat] true),
    (fr [7%nat] false), 7%nat.
  conj; try reflexivity.
  - intros c k. repeat constructor.
  - apply r2_frame; [apply r2_new | apply nd1].
  - discriminate.
Qed.

(* show() for an AnimateQueue that is shown ("It is possible to use this method if
   already shown", 18415) leaves objects on the screen that are not removed by the
   next frame, nor by remove(). *)
Theorem C81_show_again_refuted :
  exists m s f, creates m /\ run2 m s /\ on s = true /\ f_keep f = true /\ NoDup (f_q f) /\
    wanted2 f = [] /\
    In (Own 0) (shown (tick2 m f (show2 s))) /\
    In (Own 0) (shown (remove2 (tick2 m f (show2 s)))).
Proof.
  exists default, (tick2 default (fr [7%nat] false) (new2 [] flat)), (fr [] false).
  conj; try reflexivity; try (vm_compute; tauto).
  - intros c k. repeat constructor.
  - apply r2_frame; [apply r2_new | apply nd1].
  - constructor.
Qed.

(* With a trajectory the anchor is added to the distance along the trajectory
   (18330, 18380), so moving the anchor does not move the queue with it. *)
Theorem C81_anchor_refuted :
  exists m s f f' o, creates m /\ run2 m s /\ on s = true /\
    (exists tr, f_traj f = Some tr) /\ f_keep f = true /\
    f' = F2 (f_t f) (f_keep f) (f_visible f) (f_max f) (f_dir f) (f_reverse f) (f_x f) (f_y f)
           (f_ax f + 100) (f_ay f + 200) (f_traj f) (f_scaled f) (f_q f) /\
    In o (shown (tick2 m f s)) /\ In o (shown (tick2 m f' s)) /\
    let '(x, y, _) := attr (tick2 m f s) o in
    let '(x', y', _) := attr (tick2 m f' s) o in
    ~ x' == x + 100 /\ ~ y' == y + 200.
Proof.
  (* a straight line to the north, 10 units for each unit of distance *)
  exists default, (new2 [] flat),
    (F2 0 true true None DirW false 0 0 0 0 (Some (fun u => (0, 10 * u, 0))) false [7%nat]),
    (F2 0 true true None DirW false 0 0 100 200 (Some (fun u => (0, 10 * u, 0))) false [7%nat]),
    (Own 0).
  conj; try reflexivity; try (vm_compute; tauto).
  - intros c k. repeat constructor.
  - apply r2_new.
  - eexists. reflexivity.
  - vm_compute. split; discriminate.
Qed.

(* An Animate3dQueue that is removed and shown again does not show the components
   that are still in the queue: remove() keeps current_aos, so that the next frame
   uses the removed objects again. *)
Theorem C81_show_3d_refuted :
  exists m s f c, creates m /\ run3 m s /\ on s = true /\ g_keep f = true /\ wanted3 f = [c] /\
    g_dir f <> Bad3 /\
    shown (fst (tick3 m f s)) = [Own 0] /\
    shown (fst (tick3 m f (show3 (remove3 s)))) = [].
Proof.
  exists default, (fst (tick3 default (fr3 Xp [7%nat]) (new3 [] flat))), (fr3 Xp [7%nat]), 7%nat.
  conj; try reflexivity; try discriminate.
  - intros c k. repeat constructor.
  - apply r3_frame; [apply r3_new | apply nd1 | discriminate].
Qed.

(* A direction that is not valid makes the frame raise ValueError, and what was
   shown then stays on the screen, even after remove(). *)
Theorem C81_direction_3d_refuted :
  exists m s f, creates m /\ run3 m s /\ on s = true /\
    snd (tick3 m f s) = true /\ shown (remove3 (fst (tick3 m f s))) = [Own 0].
Proof.
  exists default, (fst (tick3 default (fr3 Xp [7%nat]) (new3 [] flat))), (fr3 Bad3 []).
  conj; try reflexivity.
  - intros c k. repeat constructor.
  - apply r3_frame; [apply r3_new | apply nd1 | discriminate].
Qed.

(* An AnimateQueue and an Animate3dQueue in their third frame, in which component 7
   has left and component 9 has come; one alien object. *)
Example C81_case :
  let s := tick2 default (fr [7; 8]%nat true) (tick2 default (fr [7; 8]%nat false) (new2 [3%nat] flat)) in
  let f := F2 1 true true (Some 2%Z) DirW true 100 200 0 0 None false [8; 9; 10]%nat in
  let s' := tick2 default f s in
  run2 default s /\ creates default /\ on s = true /\ NoDup (f_q f) /\
  wanted2 f = [10; 9]%nat /\ shown s' = [Alien 3; Own 2; Own 3] /\
  Qred (fst (fst (attr s' (Own 2)))) = 100 /\ Qred (fst (fst (attr s' (Own 3)))) = 50.
Proof.
  cbn zeta. conj; try (vm_compute; reflexivity).
  - apply r2_frame; [apply r2_frame; [apply r2_new | ] | ]; apply nd2.
  - intros c k. repeat constructor.
  - repeat constructor; cbn; intuition discriminate.
Qed.

Example C81_case_3d :
  let s := fst (tick3 default (fr3 Ym [7; 8]%nat) (new3 [3%nat] flat)) in
  let f := F3 1 true None Ym false 1 2 3 [8; 9]%nat in
  let s' := fst (tick3 default f s) in
  run3 default s /\ on s = true /\ NoDup (g_q f) /\ g_dir f <> Bad3 /\
  shown s' = [Alien 3; Own 1; Own 2] /\
  Qred (snd (fst (attr s' (Own 1)))) = 2 /\ Qred (snd (fst (attr s' (Own 2)))) = - 48.
Proof.
  cbn zeta. conj; try (vm_compute; reflexivity); try discriminate.
  - apply r3_frame; [apply r3_new | apply nd2 | discriminate].
  - repeat constructor; cbn; intuition discriminate.
Qed.

Print Assumptions C81_frame.
Print Assumptions C81_removed.
Print Assumptions C81_remove.
Print Assumptions C81_frame_3d.
Print Assumptions C81_removed_3d.
Print Assumptions C81_same_objects_refuted.
Print Assumptions C81_rerender_refuted.
Print Assumptions C81_show_again_refuted.
Print Assumptions C81_anchor_refuted.
Print Assumptions C81_show_3d_refuted.
Print Assumptions C81_direction_3d_refuted.
