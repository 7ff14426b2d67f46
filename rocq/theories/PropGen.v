(** Property C50: generators with an inter arrival time. *)
From Coq Require Import QArith Qminmax Lqa List Bool Arith ZArith Lia.
From Verif Require Import Base Util Gen.
Import ListNotations.
Open Scope Q_scope.

(** ** Specification *)
(** the times at which components start, and those at which at_end is called *)
Definition starts (l : list (Q * act)) : list Q := flat_map (fun ta => match snd ta with Create t => [t] | AtEnd => [] end) l.
Definition at_ends (l : list (Q * act)) : list Q := flat_map (fun ta => match snd ta with Create _ => [] | AtEnd => [fst ta] end) l.
(** the times at which components are created *)
Definition creations (l : list (Q * act)) : list Q := flat_map (fun ta => match snd ta with Create _ => [fst ta] | AtEnd => [] end) l.
(** the moment of the k-th arrival, k = 1, 2, ...: at + the sum of the first k inter arrival times (k-1 with force_at) *)
Definition arrival (at_ : Q) (iat : nat -> Q) (force_at : bool) (k : nat) : Q := at_ + sumQ (map iat (seq 0 (if force_at then k - 1 else k))).
(** those of the list that come not after till *)
Fixpoint upto (till : xq) (l : list Q) : list Q := match l with [] => [] | t :: l => if xleb (Fin t) till then t :: upto till l else [] end.
(** at most so many *)
Definition limit (number : option Z) (n : nat) : nat := match number with None => n | Some m => min n (Z.to_nat m) end.
Definition same (a b : list Q) : Prop := Forall2 Qeq a b.
(** where the generation starts and ends, offset 0 *)
Definition at_of (now : Q) (a : gargs) : Q := match a_at a with Some t => t | None => now + match a_delay a with Some d => d | None => 0 end end.
Definition till_arg (now : Q) (a : gargs) : xq := match a_till a, a_dur a with Some t, _ => t | None, Some d => xadd (Fin (at_of now a)) d | None, None => PInf end.
Definition no_reset : nat -> Q := fun _ => 0.

(** ** Proofs *)
Lemma starts_app : forall a b, starts (a ++ b) = starts a ++ starts b. Proof. intros. unfold starts. rewrite flat_map_app. reflexivity. Qed.
Lemma at_ends_app : forall a b, at_ends (a ++ b) = at_ends a ++ at_ends b. Proof. intros. unfold at_ends. rewrite flat_map_app. reflexivity. Qed.
Lemma creations_app : forall a b, creations (a ++ b) = creations a ++ creations b. Proof. intros. unfold creations. rewrite flat_map_app. reflexivity. Qed.
Lemma done_run : forall offs n i g, g_proc g = PDone \/ g_proc g = PData -> grun offs i n g = ([], GOk g).
Proof. induction n as [|n IH]; intros i g D; [reflexivity|]. cbn [grun]. unfold resume. destruct D as [D|D]; rewrite D; cbn [map]; rewrite IH; auto. Qed.
Lemma ended_run : forall offs n i g, grun offs i n (ended g) = ([], GOk (ended g)).
Proof. intros. apply done_run. left. reflexivity. Qed.
Lemma final_run : forall offs n i g, g_proc g = PFinal -> grun offs i (S n) g = ([(g_sched g, AtEnd)], GOk (ended g)).
Proof. intros offs n i g D. cbn [grun]. unfold resume. rewrite D. cbn [map]. rewrite ended_run. reflexivity. Qed.
Lemma sumQ_seq_S : forall (f : nat -> Q) n, sumQ (map f (seq 0 (S n))) == sumQ (map f (seq 0 n)) + f n.
Proof. intros f n. rewrite seq_S, map_app, sumQ_app. cbn. ring. Qed.
Lemma arrival_S : forall at_ iat fa k, arrival at_ iat fa (S (S k)) == arrival at_ iat fa (S k) + iat (if fa then k else S k).
Proof. intros at_ iat fa k. unfold arrival. destruct fa; cbn [Nat.sub]; rewrite ?Nat.sub_0_r, sumQ_seq_S; ring. Qed.
Lemma upto_ext : forall till l l', same l l' -> same (upto till l) (upto till l').
Proof.
  intros till l l' H. induction H as [|x y l l' E F IH]; cbn [upto]; [constructor|]. assert (X : xleb (Fin x) till = xleb (Fin y) till).
  { destruct till; [|reflexivity]. cbn. destruct (Qle_bool x q) eqn:A, (Qle_bool y q) eqn:B; auto; [apply Qle_bool_iff in A; apply Qle_bool_false_iff in B; lra|apply Qle_bool_iff in B; apply Qle_bool_false_iff in A; lra]. }
  rewrite X. destruct (xleb (Fin y) till); constructor; auto.
Qed.
Lemma same_refl : forall l, same l l. Proof. intro l. induction l; constructor; auto. reflexivity. Qed.
(** the calls of at_end from the j-th arrival on *)
Fixpoint ends_spec (A : nat -> Q) (till : xq) (number : option Z) (j n : nat) : list Q :=
  match n with
  | O => []
  | S n => if negb (xleb (Fin (A j)) till) then [match till with Fin t => t | PInf => 0 end]
           else if (match number with None => false | Some m => (m <=? Z.of_nat j)%Z end) then [A j] else ends_spec A till number (S j) n
  end.
Lemma beyond_xle : forall g t, beyond g t = negb (xleb (Fin t) (g_till g)).
Proof. intros g t. unfold beyond. destruct (g_till g) as [x|]; [|reflexivity]. cbn. unfold Qltb. destruct (Qle_bool t x); reflexivity. Qed.
Lemma xleb_ext : forall x y till, x == y -> xleb (Fin x) till = xleb (Fin y) till.
Proof.
  intros x y till E. destruct till as [q|]; [|reflexivity]. cbn. destruct (Qle_bool x q) eqn:A, (Qle_bool y q) eqn:B; auto; [apply Qle_bool_iff in A; apply Qle_bool_false_iff in B; lra|apply Qle_bool_iff in B; apply Qle_bool_false_iff in A; lra].
Qed.
Section run.
  Variables (iat : draw) (A : nat -> Q) (kk : nat -> nat).
  Hypothesis (POS : forall k, 0 <= drawn iat k) (STEP : forall j, (1 <= j)%nat -> A (S j) == A j + drawn iat (kk j)) (KK : forall j, (1 <= j)%nat -> kk (S j) = S (kk j)).
  Definition at_arrival (g : gen) (j : nat) : Prop := (1 <= j)%nat /\ g_proc g = PIat /\ g_iat g = iat /\ g_iatk g = kk j /\ (g_n g + 1 = Z.of_nat j)%Z /\ g_sched g == A j /\ xleb (Fin (A j)) (g_till g) = true /\ (match g_number g with None => True | Some m => (Z.of_nat j <= m)%Z end).
  Lemma iat_run : forall n i j g, at_arrival g j -> exists l g1, grun no_reset i n g = (l, GOk g1) /\
    same (starts l) (upto (g_till g) (map A (seq j (match g_number g with None => n | Some m => min n (Z.to_nat m + 1 - j) end)))) /\ starts l = creations l /\ same (at_ends l) (ends_spec A (g_till g) (g_number g) j n).
  Proof.
    induction n as [|n IH]; intros i j g (J1 & PR & IA & IK & N & SC & LE & NU).
    - exists [], g. split; [reflexivity|]. replace (match g_number g with None => 0%nat | Some m => min 0 (Z.to_nat m + 1 - j) end) with 0%nat by (destruct (g_number g); auto). repeat split; constructor.
    - cbn [grun]. unfold resume at 1. rewrite PR. cbn [ends_spec]. rewrite LE. cbn [negb]. rewrite N.
      assert (CNT : (match g_number g with None => S n | Some m => min (S n) (Z.to_nat m + 1 - j) end) = S (match g_number g with None => n | Some m => min n (Z.to_nat m + 1 - S j) end)) by (destruct (g_number g) as [m|]; [lia|reflexivity]).
      rewrite CNT. cbn [seq map upto]. rewrite LE. clear CNT. destruct (enough g (Z.of_nat j)) eqn:EN.
      + unfold enough in EN. rewrite EN. cbn [map]. rewrite ended_run. rewrite app_nil_r. do 2 eexists. split; [reflexivity|]. unfold starts, at_ends, creations. cbn [flat_map snd fst app]. destruct (g_number g) as [m|]; [|discriminate]. apply Z.leb_le in EN.
        assert (M0 : min n (Z.to_nat m + 1 - S j) = 0%nat) by lia. rewrite M0. cbn [seq map upto]. split; [constructor; auto; constructor|]. split; [reflexivity|]. constructor; auto.
      + unfold enough in EN. rewrite EN. rewrite IA, IK. set (t := g_sched g + drawn iat (kk j)). assert (T : t == A (S j)) by (unfold t; rewrite SC, STEP by auto; reflexivity). rewrite beyond_xle, (xleb_ext _ _ _ T).
        destruct (xleb (Fin (A (S j))) (g_till g)) eqn:LE1; cbn [negb].
        * unfold resched. assert (X : Qltb (t + no_reset i) (g_sched g) = false) by (apply Qltb_false_iff; unfold no_reset, t; specialize (POS (kk j)); lra). rewrite X.
          set (g2 := w_sched PIat (t + no_reset i) (w_count (S (kk j)) (g_distk g) (Z.of_nat j) g)). destruct (IH (S i) (S j) g2) as (l & g1 & R & ST & CR & AE).
          { unfold g2. split; [lia|]. repeat split; cbn; auto; [symmetry; auto|lia|unfold no_reset; lra|]. destruct (g_number g) as [m|]; auto. apply Z.leb_gt in EN. lia. }
          rewrite R. cbn [map]. do 2 eexists. split; [reflexivity|]. rewrite starts_app, creations_app, at_ends_app. cbn [starts creations at_ends flat_map snd fst app] in *. split; [constructor; auto|]. split; [rewrite CR; reflexivity|]. exact AE.
        * assert (LTt : match g_till g with PInf => False | Fin x => x < A (S j) end) by (destruct (g_till g) as [x|]; [cbn in LE1; apply Qle_bool_false_iff in LE1; auto|discriminate]).
          unfold resched. assert (X : Qltb (till_of g + no_reset i) (g_sched g) = false) by (apply Qltb_false_iff; unfold till_of, no_reset; destruct (g_till g); [|contradiction]; cbn in LE; apply Qle_bool_iff in LE; lra). rewrite X.
          assert (UP : forall k, upto (g_till g) (map A (seq (S j) k)) = []) by (intros [|k]; [reflexivity|]; cbn [seq map upto]; rewrite LE1; reflexivity). rewrite UP. destruct n as [|n].
          -- cbn [grun]. do 2 eexists. split; [reflexivity|]. cbn. split; [constructor; auto; constructor|]. split; [reflexivity|]. constructor.
          -- rewrite final_run by reflexivity. do 2 eexists. split; [reflexivity|]. cbn [starts at_ends creations flat_map map app snd fst]. split; [constructor; auto; constructor|]. split; [reflexivity|].
             cbn [ends_spec]. rewrite LE1. cbn. constructor; [|constructor]. unfold till_of, no_reset. destruct (g_till g); [|contradiction]. ring.
  Qed.
End run.
Lemma new_iat_run : forall now at_ till number iat fa sf g n, (forall k, 0 <= drawn iat k) -> (match number with None => True | Some m => (1 <= m)%Z end) -> new_iat now 0 at_ till number iat fa false None sf = GOk g ->
  exists l g1, grun no_reset 0 n g = (l, GOk g1) /\ same (starts l) (upto till (map (arrival at_ (drawn iat) fa) (seq 1 (limit number n)))) /\ starts l = creations l /\ same (at_ends l) (ends_spec (arrival at_ (drawn iat) fa) till number 1 n).
Proof.
  intros now at_ till number iat fa sf g n POS NUM H. unfold new_iat in H. set (A := arrival at_ (drawn iat) fa).
  destruct (if fa then (at_, 0%nat) else (at_ + drawn iat 0, 1%nat)) as [at1 k] eqn:E1. assert (X1 : at1 == A 1%nat /\ k = (if fa then 0%nat else 1%nat)).
  { unfold A, arrival. destruct fa; injection E1 as <- <-; cbn; split; auto; ring. }
  destruct X1 as [AT1 KK]. clear E1.
  assert (GO : xleb (Fin at1) till = true -> g = mkgen PIat (at1 + 0) till number iat k (DNum 0) 0 sf [] 0 -> exists l g1, grun no_reset 0 n g = (l, GOk g1) /\ same (starts l) (upto till (map A (seq 1 (limit number n)))) /\ starts l = creations l /\ same (at_ends l) (ends_spec A till number 1 n)).
  { intros LE ->. set (g := mkgen PIat (at1 + 0) till number iat k (DNum 0) 0 sf [] 0). destruct (iat_run iat A (fun j => if fa then (j - 1)%nat else j) POS) with (n := n) (i := 0%nat) (j := 1%nat) (g := g) as (l & g1 & R1 & R2 & R3 & R4).
    - intros [|j] J; [lia|]. unfold A. rewrite arrival_S. cbn [Nat.sub]. rewrite Nat.sub_0_r. reflexivity.
    - intros j J. destruct fa; lia.
    - unfold at_arrival. cbn [g g_proc g_iat g_iatk g_n g_sched g_till g_number]. split; [lia|]. split; [auto|]. split; [auto|]. split; [destruct fa; auto|]. split; [reflexivity|]. split; [rewrite AT1; ring|]. split; [rewrite <- (xleb_ext _ _ _ AT1); exact LE|]. exact NUM.
    - exists l, g1. split; [exact R1|]. split; [|split; auto]. cbn [g g_till g_number] in R2. unfold limit. destruct number as [m|]; auto. replace (Z.to_nat m + 1 - 1)%nat with (Z.to_nat m) in R2 by lia. exact R2. }
  destruct till as [t|].
  - destruct (Qltb t at1) eqn:LT.
    + apply Qltb_iff in LT. unfold start in H. destruct (Qltb (t + 0) now); [discriminate|]. injection H as <-. assert (B : xleb (Fin (A 1%nat)) (Fin t) = false) by (cbn; apply Qle_bool_false_iff; lra).
      assert (UP : forall k, upto (Fin t) (map A (seq 1 k)) = []) by (intros [|k0]; [reflexivity|]; cbn [seq map upto]; rewrite B; reflexivity). rewrite UP. destruct n as [|n]; [do 2 eexists; split; [reflexivity|]; repeat split; constructor|].
      rewrite final_run by reflexivity. do 2 eexists. split; [reflexivity|]. cbn [starts creations at_ends flat_map snd fst app g_sched]. split; [constructor|]. split; [reflexivity|]. cbn [ends_spec]. rewrite B. cbn. constructor; [ring|constructor].
    + apply Qltb_false_iff in LT. unfold start in H. destruct (Qltb (at1 + 0) now); [discriminate|]. injection H as <-. apply GO; auto. cbn. apply Qle_bool_iff. auto.
  - unfold start in H. destruct (Qltb (at1 + 0) now); [discriminate|]. injection H as <-. apply GO; auto.
Qed.

(** an iat generator: an iat, no disturbance, offset 0 *)
Definition is_iat (a : gargs) (iat : draw) : Prop := a_iat a = Some iat /\ truthy (a_dist a) = false /\ forall k, 0 <= drawn iat k.
Lemma new_gen_iat : forall now us a iat g, is_iat a iat -> (match a_number a with None => True | Some m => (1 <= m)%Z end) -> a_moments a = None -> new_gen now 0 us a = GOk g ->
  exists at_ till, at_ == at_of now a /\ (match a_till a, a_dur a with Some (Fin q), _ => till = Fin (q + 0) | None, Some d => till = xadd (Fin at_) d | _, _ => till = PInf end) /\ a_equi a = false /\ a_force_till a = false /\ new_iat now 0 at_ till (a_number a) iat (a_force_at a) false None (a_force_at a) = GOk g.
Proof.
  intros now us a iat g (IA & DI & POS) NUM MO H. unfold new_gen in H. rewrite MO, IA, DI in H. destruct (a_at a) as [ta|] eqn:AT; destruct (a_delay a) as [de|] eqn:DE; try discriminate.
  all: destruct (a_till a) as [t|] eqn:TI; destruct (a_dur a) as [du|] eqn:DU; cbn [gbind] in H; try discriminate.
  all: match type of H with (if ?b then _ else _) = _ => destruct b; [discriminate|] end.
  all: match type of H with (if ?b then _ else _) = _ => destruct b; [discriminate|] end.
  all: assert (N1 : (match a_number a with None => false | Some n => (n <? 1)%Z end) = false) by (destruct (a_number a); auto; apply Z.ltb_ge; auto).
  all: rewrite N1 in H; destruct (a_equi a) eqn:EQ; [discriminate|].
  all: assert (FT : a_force_till a = false) by (destruct (a_force_till a); auto; discriminate); rewrite FT in H.
  all: unfold at_of; rewrite AT, ?DE; do 2 eexists; split; [|split; [|split; [reflexivity|split; [exact FT|exact H]]]].
  all: try (destruct t; reflexivity); try reflexivity; ring.
Qed.
(** Arrivals of an iat generator: in any number n of resumptions, the components created are those of the first n arrivals that are not after till, at most number of them; each component is created at the moment of its arrival. *)
Lemma arrival_ext : forall a b iat fa k, a == b -> arrival a iat fa k == arrival b iat fa k.
Proof. intros. unfold arrival. rewrite H. reflexivity. Qed.
Lemma same_trans : forall a b c, same a b -> same b c -> same a c.
Proof. intros a b c H. revert c. induction H; intros c K; inversion K; subst; constructor; auto. etransitivity; eauto. apply IHForall2. auto. Qed.
Lemma same_map : forall (f g : nat -> Q) l, (forall k, f k == g k) -> same (map f l) (map g l).
Proof. intros f g l H. induction l; constructor; auto. Qed.
Lemma xleb_ext2 : forall x till till', xeq till till' -> xleb (Fin x) till = xleb (Fin x) till'.
Proof.
  intros x [p|] [q|] E; cbn in *; try contradiction; auto. destruct (Qle_bool x p) eqn:A, (Qle_bool x q) eqn:B; auto; [apply Qle_bool_iff in A; apply Qle_bool_false_iff in B; lra|apply Qle_bool_iff in B; apply Qle_bool_false_iff in A; lra].
Qed.
Lemma upto_ext2 : forall till till' l, xeq till till' -> upto till l = upto till' l.
Proof. intros till till' l E. induction l as [|x l IH]; cbn [upto]; auto. rewrite (xleb_ext2 _ _ _ E), IH. reflexivity. Qed.
Lemma ends_ext : forall A B till till' number n j, (forall k, A k == B k) -> xeq till till' -> same (ends_spec A till number j n) (ends_spec B till' number j n).
Proof.
  intros A B till till' number n. induction n as [|n IH]; intros j E T; cbn [ends_spec]; [constructor|]. rewrite (xleb_ext _ _ till (E j)), (xleb_ext2 _ _ _ T).
  destruct (negb (xleb (Fin (B j)) till')); [constructor; [|constructor]; destruct till, till'; cbn in T; try contradiction; auto; reflexivity|]. destruct (match number with None => false | Some m => (m <=? Z.of_nat j)%Z end); [constructor; auto; constructor|]. apply IH; auto.
Qed.
Lemma iat_gen : forall now us a iat g n, is_iat a iat -> a_moments a = None -> (match a_number a with None => True | Some m => (1 <= m)%Z end) -> new_gen now 0 us a = GOk g -> exists l g1, grun no_reset 0 n g = (l, GOk g1) /\
  same (starts l) (upto (till_arg now a) (map (arrival (at_of now a) (drawn iat) (a_force_at a)) (seq 1 (limit (a_number a) n)))) /\ starts l = creations l /\ same (at_ends l) (ends_spec (arrival (at_of now a) (drawn iat) (a_force_at a)) (till_arg now a) (a_number a) 1 n).
Proof.
  intros now us a iat g n I MO NUM H. destruct (new_gen_iat now us a iat g I NUM MO H) as (at_ & till & AT & TI & _ & _ & NI). destruct I as (_ & _ & POS).
  destruct (new_iat_run now at_ till (a_number a) iat (a_force_at a) (a_force_at a) g n POS NUM NI) as (l & g1 & R & ST & CR & AE). exists l, g1. split; auto.
  assert (TE : xeq till (till_arg now a)).
  { unfold till_arg. destruct (a_till a) as [[q|]|]; subst; cbn; [ring|auto|]. destruct (a_dur a) as [[d|]|]; subst; cbn; auto. rewrite AT. reflexivity. }
  split; [|split; auto].
  - eapply same_trans; [exact ST|]. rewrite (upto_ext2 _ _ _ TE). apply upto_ext, same_map. intro k. apply arrival_ext. auto.
  - eapply same_trans; [exact AE|]. apply ends_ext; auto. intro k. apply arrival_ext. auto.
Qed.
Theorem C50_arrivals : forall now us a iat g n, is_iat a iat -> a_moments a = None -> (match a_number a with None => True | Some m => (1 <= m)%Z end) -> new_gen now 0 us a = GOk g -> exists l g1, grun no_reset 0 n g = (l, GOk g1) /\
  same (starts l) (upto (till_arg now a) (map (arrival (at_of now a) (drawn iat) (a_force_at a)) (seq 1 (limit (a_number a) n)))) /\ starts l = creations l.
Proof. intros. destruct (iat_gen now us a iat g n) as (l & g1 & R & S & C & _); auto. exists l, g1. auto. Qed.
(** at_end: once at the last of number arrivals, if that is not after till ... *)
Lemma arrival_mono : forall at_ iat fa, (forall k, 0 <= iat k) -> forall i j, (i <= j)%nat -> arrival at_ iat fa i <= arrival at_ iat fa j.
Proof.
  intros at_ iat fa POS i j L. unfold arrival. assert (M : forall a b, (a <= b)%nat -> sumQ (map iat (seq 0 a)) <= sumQ (map iat (seq 0 b))).
  { clear - POS. intros a b L. induction L as [|b L IH]; [lra|]. rewrite sumQ_seq_S. specialize (POS b). lra. }
  destruct fa; [specialize (M (i - 1)%nat (j - 1)%nat ltac:(lia))|specialize (M i j L)]; lra.
Qed.
Lemma ends_number : forall A till m, xleb (Fin (A m)) till = true -> (forall i j, (i <= j)%nat -> A i <= A j) -> forall n j, (1 <= j <= m)%nat -> (m < j + n)%nat -> ends_spec A till (Some (Z.of_nat m)) j n = [A m].
Proof.
  intros A till m LE MO n. induction n as [|n IH]; intros j J L; [lia|]. cbn [ends_spec]. assert (LEj : xleb (Fin (A j)) till = true).
  { destruct till as [t|]; auto. cbn in *. apply Qle_bool_iff in LE. apply Qle_bool_iff. specialize (MO j m ltac:(lia)). lra. }
  rewrite LEj. cbn [negb]. destruct (Z.of_nat m <=? Z.of_nat j)%Z eqn:E; [apply Z.leb_le in E; replace j with m by lia; reflexivity|]. apply Z.leb_gt in E. apply IH; lia.
Qed.
Lemma ends_till : forall A t number k, t < A k -> (match number with None => True | Some m => (Z.of_nat k <= m)%Z end) -> forall n j, (1 <= j <= k)%nat -> (k < j + n)%nat -> ends_spec A (Fin t) number j n = [t].
Proof.
  intros A t number k LT NU n. induction n as [|n IH]; intros j J L; [lia|]. cbn [ends_spec]. destruct (xleb (Fin (A j)) (Fin t)) eqn:LE; cbn [negb]; [|reflexivity]. assert (j <> k) by (intro; subst; cbn in LE; apply Qle_bool_iff in LE; lra).
  assert (E : (match number with None => false | Some m => (m <=? Z.of_nat j)%Z end) = false) by (destruct number; auto; apply Z.leb_gt; lia). rewrite E. apply IH; lia.
Qed.
Lemma ends_none : forall A till number n j, (forall k, (j <= k < j + n)%nat -> xleb (Fin (A k)) till = true) -> (match number with None => True | Some m => (Z.of_nat (j + n) <= m)%Z end) -> ends_spec A till number j n = [].
Proof.
  intros A till number n. induction n as [|n IH]; intros j LE NU; cbn [ends_spec]; auto. rewrite (LE j) by lia. cbn [negb]. assert (E : (match number with None => false | Some m => (m <=? Z.of_nat j)%Z end) = false) by (destruct number; auto; apply Z.leb_gt; lia).
  rewrite E. apply IH; [intros; apply LE; lia|]. destruct number; auto. lia.
Qed.
Theorem C50_at_end_number : forall now us a iat g n m, is_iat a iat -> a_moments a = None -> a_number a = Some (Z.of_nat m) -> (1 <= m)%nat -> new_gen now 0 us a = GOk g ->
  let A := arrival (at_of now a) (drawn iat) (a_force_at a) in xle (Fin (A m)) (till_arg now a) -> (m <= n)%nat -> exists l g1, grun no_reset 0 n g = (l, GOk g1) /\ same (at_ends l) [A m] /\ length (starts l) = m.
Proof.
  intros now us a iat g n m I MO NU M H A LE N. destruct (iat_gen now us a iat g n I MO ltac:(rewrite NU; lia) H) as (l & g1 & R & S & _ & E). exists l, g1. split; auto. rewrite NU in *. apply xleb_iff in LE. fold A in S, E.
  assert (MON : forall i j, (i <= j)%nat -> A i <= A j) by (apply arrival_mono; apply I). split; [rewrite ends_number in E; auto; lia|].
  unfold limit in S. rewrite Nat2Z.id, Nat.min_r in S by lia. assert (LEN : forall l, (forall x, In x l -> xleb (Fin x) (till_arg now a) = true) -> upto (till_arg now a) l = l).
  { clear. induction l as [|x l IH]; intro F; cbn [upto]; auto. rewrite (F x) by (left; auto). rewrite IH; auto. intros; apply F; right; auto. }
  rewrite LEN in S; [|intros x IN; apply in_map_iff in IN; destruct IN as (k & <- & K); apply in_seq in K; destruct (till_arg now a) as [t|]; auto; cbn in *; apply Qle_bool_iff in LE; apply Qle_bool_iff; specialize (MON k m ltac:(lia)); lra].
  assert (L2 : forall a b, same a b -> length a = length b) by (intros ? ? F; induction F; cbn; auto). rewrite (L2 _ _ S), map_length, seq_length. reflexivity.
Qed.
(** ... once at till, if one of the arrivals that are asked for is after till ... *)
Theorem C50_at_end_till : forall now us a iat g n k t, is_iat a iat -> a_moments a = None -> (match a_number a with None => True | Some m => (Z.of_nat k <= m)%Z end) -> (1 <= k)%nat -> new_gen now 0 us a = GOk g -> till_arg now a = Fin t ->
  t < arrival (at_of now a) (drawn iat) (a_force_at a) k -> (k <= n)%nat -> exists l g1, grun no_reset 0 n g = (l, GOk g1) /\ same (at_ends l) [t] /\ forall x, In x (starts l) -> x <= t.
Proof.
  intros now us a iat g n k t I MO NU K H T LT N. destruct (iat_gen now us a iat g n I MO ltac:(destruct (a_number a); auto; lia) H) as (l & g1 & R & S & _ & E). exists l, g1. split; auto. rewrite T in *. split; [rewrite (ends_till _ t (a_number a) k) in E; auto; lia|].
  intros x IN. clear - S IN. revert IN. revert S. generalize (starts l). intros l0 S. assert (F : forall y, In y (upto (Fin t) (map (arrival (at_of now a) (drawn iat) (a_force_at a)) (seq 1 (limit (a_number a) n)))) -> y <= t).
  { generalize (map (arrival (at_of now a) (drawn iat) (a_force_at a)) (seq 1 (limit (a_number a) n))). clear. induction l as [|z l IH]; cbn [upto]; [intros _ []|]. intros y. destruct (xleb (Fin z) (Fin t)) eqn:Z; [|intros []]. intros [<-|IN]; auto. cbn in Z. apply Qle_bool_iff in Z. auto. }
  induction S as [|p q lp lq PQ S IH]; intros IN; [destruct IN|]. destruct IN as [<-|IN]; [rewrite PQ; apply F; left; auto|]. apply IH; auto. intros y Y. apply F. right. auto.
Qed.
(** ... and not before that. *)
Theorem C50_at_end_not : forall now us a iat g n, is_iat a iat -> a_moments a = None -> (match a_number a with None => True | Some m => (Z.of_nat n < m)%Z end) -> new_gen now 0 us a = GOk g ->
  (forall k, (1 <= k <= n)%nat -> xle (Fin (arrival (at_of now a) (drawn iat) (a_force_at a) k)) (till_arg now a)) -> exists l g1, grun no_reset 0 n g = (l, GOk g1) /\ at_ends l = [].
Proof.
  intros now us a iat g n I MO NU H LE. destruct (iat_gen now us a iat g n I MO ltac:(destruct (a_number a); auto; lia) H) as (l & g1 & R & S & _ & E). exists l, g1. split; auto. rewrite ends_none in E; [inversion E; auto| |destruct (a_number a); auto; lia].
  intros k K. apply xleb_iff. apply LE. lia.
Qed.

(** ** Disturbance *)
(** With a disturbance, without force_at, the k-th component starts at the moment of the k-th arrival plus the k-th disturbance, up to the first one after till, number components at most. *)
Section disturbed.
  Variables (iat dist : draw) (at_ : Q).
  Hypothesis (PI : forall k, 0 <= drawn iat k) (PD : forall k, 0 <= drawn dist k).
  Let A := arrival at_ (drawn iat) false.
  Let B (k : nat) : Q := A k + drawn dist (k - 1).
  Definition at_disturbed (g : gen) (j : nat) : Prop := (1 <= j)%nat /\ g_proc g = PDist /\ g_iat g = iat /\ g_dist g = dist /\ g_force g = false /\ g_iatk g = (j - 1)%nat /\ g_distk g = (j - 1)%nat /\ (g_n g + 1 = Z.of_nat j)%Z /\ g_sched g == A (j - 1) /\ xleb (Fin (A (j - 1))) (g_till g) = true /\ (match g_number g with None => True | Some m => (Z.of_nat j <= m)%Z end).
  Lemma dist_run : forall n i j g, at_disturbed g j -> exists l g1, grun no_reset i n g = (l, GOk g1) /\
    same (starts l) (upto (g_till g) (map B (seq j (match g_number g with None => n | Some m => min n (Z.to_nat m + 1 - j) end)))).
  Proof.
    induction n as [|n IH]; intros i j g (J1 & PR & IA & DI & FO & IK & DK & N & SC & LE & NU).
    - exists [], g. split; [reflexivity|]. replace (match g_number g with None => 0%nat | Some m => min 0 (Z.to_nat m + 1 - j) end) with 0%nat by (destruct (g_number g); auto). constructor.
    - cbn [grun]. unfold resume at 1. rewrite PR, FO, IA, DI, IK, DK, N.
      assert (CNT : (match g_number g with None => S n | Some m => min (S n) (Z.to_nat m + 1 - j) end) = S (match g_number g with None => n | Some m => min n (Z.to_nat m + 1 - S j) end)) by (destruct (g_number g) as [m|]; [lia|reflexivity]).
      rewrite CNT. cbn [seq map upto]. clear CNT. set (t := g_sched g + drawn iat (j - 1) + drawn dist (j - 1)).
      assert (AJ : A j == A (j - 1) + drawn iat (j - 1)) by (unfold A, arrival; destruct j as [|j]; [lia|]; cbn [Nat.sub]; rewrite Nat.sub_0_r, sumQ_seq_S; ring).
      assert (T : t == B j) by (unfold t, B; rewrite SC, AJ; reflexivity). rewrite beyond_xle, (xleb_ext _ _ _ T). pose proof (PI (j - 1)) as PI1. pose proof (PD (j - 1)) as PD1.
      destruct (xleb (Fin (B j)) (g_till g)) eqn:LB; cbn [negb].
      + assert (X : Qltb (t + no_reset i) (g_sched g) = false) by (apply Qltb_false_iff; unfold no_reset, t; lra). rewrite X. destruct (enough g (Z.of_nat j)) eqn:EN.
        * cbn [map]. rewrite ended_run, app_nil_r. do 2 eexists. split; [reflexivity|]. unfold enough in EN. destruct (g_number g) as [m|]; [|discriminate]. apply Z.leb_le in EN. assert (M0 : min n (Z.to_nat m + 1 - S j) = 0%nat) by lia. rewrite M0. cbn. constructor; [|constructor]. rewrite T. unfold no_reset. ring.
        * unfold resched. assert (X2 : Qltb (g_sched g + drawn iat (j - 1) + no_reset i) (g_sched g) = false) by (apply Qltb_false_iff; unfold no_reset; lra). rewrite X2.
          set (g2 := w_sched PDist (g_sched g + drawn iat (j - 1) + no_reset i) (w_count (S (j - 1)) (S (j - 1)) (Z.of_nat j) g)). destruct (IH (S i) (S j) g2) as (l & g1 & R & ST).
          { unfold at_disturbed, g2. cbn [w_sched w_count g_proc g_iat g_dist g_force g_iatk g_distk g_n g_sched g_till g_number]. split; [lia|]. do 4 (split; [auto|]). split; [lia|]. split; [lia|]. split; [lia|]. replace (S j - 1)%nat with j by lia. split; [rewrite AJ, SC; unfold no_reset; ring|].
            split; [|unfold enough in EN; destruct (g_number g); auto; apply Z.leb_gt in EN; lia]. destruct (g_till g) as [x|]; auto. cbn in *. apply Qle_bool_iff in LB. apply Qle_bool_iff. unfold B in LB. lra. }
          rewrite R. cbn [map]. do 2 eexists. split; [reflexivity|]. rewrite starts_app. cbn [starts flat_map snd fst app] in *. constructor; [rewrite T; unfold no_reset; ring|exact ST].
      + unfold resched. assert (LTt : match g_till g with PInf => False | Fin x => x < B j end) by (destruct (g_till g) as [x|]; [cbn in LB; apply Qle_bool_false_iff in LB; auto|discriminate]).
        assert (X : Qltb (till_of g + no_reset i) (g_sched g) = false) by (apply Qltb_false_iff; unfold till_of, no_reset; destruct (g_till g); [|contradiction]; cbn in LE; apply Qle_bool_iff in LE; lra). rewrite X.
        destruct n as [|n]; [cbn [grun map app]; do 2 eexists; split; [reflexivity|constructor]|]. rewrite final_run by reflexivity. do 2 eexists. split; [reflexivity|]. constructor.
  Qed.
End disturbed.
Theorem C50_disturbance : forall now us a iat dist g n, a_iat a = Some iat -> a_dist a = Some dist -> truthy (a_dist a) = true -> (forall k, 0 <= drawn iat k) -> (forall k, 0 <= drawn dist k) -> a_force_at a = false -> a_moments a = None ->
  (match a_number a with None => True | Some m => (1 <= m)%Z end) -> new_gen now 0 us a = GOk g -> exists l g1, grun no_reset 0 n g = (l, GOk g1) /\
  same (starts l) (upto (till_arg now a) (map (fun k => arrival (at_of now a) (drawn iat) false k + drawn dist (k - 1)) (seq 1 (limit (a_number a) n)))).
Proof.
  intros now us a iat dist g n IA DI TR PI PD FA MO NUM H. unfold new_gen in H. rewrite MO, IA, TR, DI, FA in H.
  assert (GO : forall at_ till, at_ == at_of now a -> xeq till (till_arg now a) -> xltb till (Fin at_) = false -> new_iat now 0 at_ till (a_number a) iat false false (Some dist) false = GOk g -> exists l g1, grun no_reset 0 n g = (l, GOk g1) /\
    same (starts l) (upto (till_arg now a) (map (fun k => arrival (at_of now a) (drawn iat) false k + drawn dist (k - 1)) (seq 1 (limit (a_number a) n))))).
  { intros at_ till AT TE LE NI. apply xltb_false_iff in LE. assert (G : g = mkgen PDist (at_ + 0) till (a_number a) iat 0 dist 0 false [] 0).
    { unfold new_iat, start in NI. destruct till as [t|]; [cbn in LE; assert (X : Qltb t at_ = false) by (apply Qltb_false_iff; auto); rewrite X in NI|]; destruct (Qltb (at_ + 0) now); try discriminate; injection NI as <-; reflexivity. }
    assert (A0 : arrival at_ (drawn iat) false 0 == at_) by (unfold arrival; cbn; ring). destruct (dist_run iat dist at_ PI PD n 0 1 g) as (l & g1 & R & ST).
    { subst g. unfold at_disturbed. cbn [g_proc g_iat g_dist g_force g_iatk g_distk g_n g_sched g_till g_number Nat.sub]. split; [lia|]. do 7 (split; [reflexivity|]). split; [rewrite A0; ring|]. split; [|exact NUM]. rewrite (xleb_ext _ _ _ A0). apply xleb_iff. auto. }
    exists l, g1. split; auto. subst g. cbn [g_till g_number] in ST. eapply same_trans; [exact ST|]. rewrite (upto_ext2 _ _ _ TE). unfold limit. replace (match a_number a with None => n | Some m => min n (Z.to_nat m + 1 - 1) end) with (match a_number a with None => n | Some m => min n (Z.to_nat m) end) by (destruct (a_number a); auto; f_equal; lia).
    apply upto_ext, same_map. intro k. rewrite (arrival_ext _ _ _ _ _ AT). reflexivity. }
  destruct (a_at a) as [ta|] eqn:AT; destruct (a_delay a) as [de|] eqn:DE; try discriminate.
  all: destruct (a_till a) as [t|] eqn:TI; destruct (a_dur a) as [du|] eqn:DU; cbn [gbind] in H; try discriminate.
  all: match type of H with (if ?b then _ else _) = _ => destruct b eqn:LT; [discriminate|] end.
  all: match type of H with (if ?b then _ else _) = _ => destruct b; [discriminate|] end.
  all: assert (N1 : (match a_number a with None => false | Some n => (n <? 1)%Z end) = false) by (destruct (a_number a); auto; apply Z.ltb_ge; auto).
  all: rewrite N1 in H; destruct (a_equi a) eqn:EQ; [discriminate|].
  all: assert (FT : a_force_till a = false) by (destruct (a_force_till a); auto; discriminate); rewrite FT in H.
  all: refine (GO _ _ _ _ LT H); unfold till_arg, at_of; rewrite ?AT, ?DE, ?TI, ?DU; try (destruct t; cbn; auto; ring); try (destruct du; cbn; auto; ring); cbn; auto; try ring.
Qed.
(** ** Where the statement fails *)
Definition only_iat (number : option Z) (till : option xq) (iat : Q) (dist : option draw) (fa : bool) : gargs := mkga None None till None number (Some (DNum iat)) fa false dist false None.
(** With number 0 at_end is never called. *)
Theorem C50_none_refuted : exists a iat g, is_iat a iat /\ a_moments a = None /\ new_gen 0 0 (fun _ => 0) a = GOk g /\ forall n, exists g1, grun no_reset 0 n g = ([], GOk g1).
Proof. exists (only_iat (Some 0%Z) None 1 None false), (DNum 1). eexists. split; [split; [reflexivity|split; [reflexivity|intro; cbn; lra]]|]. split; [reflexivity|]. split; [reflexivity|]. intro n. eexists. apply done_run. right. reflexivity. Qed.
(** With a disturbance at_end is not called after number components. *)
Theorem C50_disturbance_at_end_refuted : exists a g, truthy (a_dist a) = true /\ a_number a = Some 2%Z /\ new_gen 0 0 (fun _ => 0) a = GOk g /\ forall n, exists l g1, grun no_reset 0 n g = (l, GOk g1) /\ at_ends l = [] /\ ((2 <= n)%nat -> length (starts l) = 2%nat /\ g_proc g1 = PDone).
Proof.
  exists (only_iat (Some 2%Z) None 10 (Some (DNum 1)) false). eexists. split; [reflexivity|]. split; [reflexivity|]. split; [reflexivity|]. intros [|[|n]]; [do 2 eexists; split; [reflexivity|split; [reflexivity|lia]]..|].
  cbn [grun]. set (r := resume (no_reset 0) _). vm_compute in r. subst r. cbv beta iota. set (r := resume (no_reset 1) _). vm_compute in r. subst r. cbv beta iota. rewrite done_run by (left; reflexivity). do 2 eexists. split; [reflexivity|]. split; [reflexivity|]. split; reflexivity.
Qed.
(** With a disturbance and force_at, reaching till raises an exception: the generator is to end at till, but that has passed. *)
Theorem C50_disturbance_till_refuted : exists a g, truthy (a_dist a) = true /\ (forall k, match a_dist a with Some d => 0 <= drawn d k | None => True end) /\ new_gen 0 0 (fun _ => 0) a = GOk g /\ exists l, grun no_reset 0 4 g = (l, GEr GValue) /\ at_ends l = [].
Proof.
  exists (only_iat None (Some (Fin 25)) 10 (Some (DNum 1)) true). eexists. split; [reflexivity|]. split; [intro; cbn; lra|]. split; [reflexivity|]. eexists. split; [vm_compute; reflexivity|]. reflexivity.
Qed.
(** Without force_at the same with a disturbance that may be negative. *)
Theorem C50_negative_refuted : exists a g, truthy (a_dist a) = true /\ a_force_at a = false /\ (forall k, match a_dist a with Some d => - (9) <= drawn d k <= 9 | None => True end) /\ new_gen 0 0 (fun _ => 0) a = GOk g /\ exists l, grun no_reset 0 4 g = (l, GEr GValue) /\ at_ends l = [].
Proof.
  exists (only_iat None (Some (Fin 25)) 10 (Some (DCall (fun k => if (k =? 2)%nat then - (9) else 1))) false). eexists. split; [reflexivity|]. split; [reflexivity|]. split; [intro k; cbn; destruct (k =? 2)%nat; lra|]. split; [reflexivity|]. eexists. split; [vm_compute; reflexivity|]. reflexivity.
Qed.
(** Case: from time 5, on 1, 2, 3, ... time units after each other, till 20 *)
Definition case_iat : draw := DCall (fun k => inject_Z (Z.of_nat k + 1)).
Definition case_args : gargs := mkga (Some 5) None (Some (Fin 20)) None (Some 9%Z) (Some case_iat) false false None false None.
Example C50_case : is_iat case_args case_iat /\ exists g, new_gen 0 0 (fun _ => 0) case_args = GOk g /\ exists l g1, grun no_reset 0 30 g = (l, GOk g1) /\ same (starts l) [6; 8; 11; 15; 20] /\ same (at_ends l) [20].
Proof.
  split; [split; [reflexivity|split; [reflexivity|]]; intro k; cbn; change 0 with (inject_Z 0); rewrite <- Zle_Qle; lia|]. eexists. split; [reflexivity|]. do 2 eexists. split; [vm_compute; reflexivity|]. split; repeat constructor; reflexivity.
Qed.
Example C50_case_disturbance : exists g, new_gen 0 0 (fun _ => 0) (only_iat (Some 3%Z) (Some (Fin 25)) 10 (Some (DCall (fun k => inject_Z (Z.of_nat k)))) false) = GOk g /\ exists l g1, grun no_reset 0 30 g = (l, GOk g1) /\ same (starts l) [10; 21] /\ same (at_ends l) [25].
Proof. eexists. split; [reflexivity|]. do 2 eexists. split; [vm_compute; reflexivity|]. split; repeat constructor; reflexivity. Qed.
Print Assumptions C50_arrivals.
Print Assumptions C50_at_end_number.
Print Assumptions C50_at_end_till.
Print Assumptions C50_at_end_not.
Print Assumptions C50_disturbance.
Print Assumptions C50_none_refuted.
Print Assumptions C50_disturbance_at_end_refuted.
Print Assumptions C50_disturbance_till_refuted.
Print Assumptions C50_negative_refuted.
