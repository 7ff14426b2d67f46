(** The component generator, continued (C50): the end is the last thing a generator does; disturbances with force_at. *)
From Coq Require Import List ZArith QArith Bool Lia Lqa.
From Verif Require Import Base Gen PropGen.
Import ListNotations.
Local Open Scope Q_scope.

(** ** at_end is the last thing that is done *)
Lemma resume_end : forall off g acts r, resume off g = (acts, r) -> (forall a, In a acts -> a <> AtEnd) \/ (exists l g1, acts = l ++ [AtEnd] /\ (forall a, In a l -> a <> AtEnd) /\ r = GOk (ended g1)).
Proof.
  intros off g acts r H. unfold resume in H. destruct (g_proc g).
  all: repeat match type of H with context [match ?x with _ => _ end] => destruct x end; injection H as <- <-.
  all: try (left; intros a I; cbn in I; repeat (destruct I as [<-|I]); try discriminate; try contradiction; fail).
  all: right; first [exists []; eexists; split; [reflexivity|split; [intros a []|reflexivity]]|eexists [_]; eexists; split; [reflexivity|split; [intros a [<-|[]]; discriminate|reflexivity]]].
Qed.
(** for every generator, whatever its arguments and whatever calls of reset_now there are in between: nothing is done after at_end, and at_end is called once at most *)
Theorem C50_at_end_last : forall offs n i g l r l1 t l2, grun offs i n g = (l, r) -> l = l1 ++ (t, AtEnd) :: l2 -> l2 = [] /\ at_ends l1 = [].
Proof.
  intros offs n. induction n as [|n IH]; intros i g l r l1 t l2 H E.
  - cbn in H. injection H as <- <-. destruct l1; discriminate.
  - cbn [grun] in H. destruct (resume (offs i) g) as [acts q] eqn:RS. destruct (resume_end _ _ _ _ RS) as [NO|(k & g1 & -> & NO & ->)].
    + assert (NE : forall t', ~ In (t', AtEnd) (map (fun a => (g_sched g, a)) acts)). { intros t' I. apply in_map_iff in I. destruct I as (a & I1 & I2). injection I1 as <- ->. apply (NO AtEnd I2). reflexivity. }
      destruct q as [g1|e].
      * destruct (grun offs (S i) n g1) as [l' r'] eqn:GR. injection H as <- <-.
        assert (X : exists l1', l1 = map (fun a => (g_sched g, a)) acts ++ l1' /\ l' = l1' ++ (t, AtEnd) :: l2).
        { clear - NE E. revert l1 E. induction (map (fun a => (g_sched g, a)) acts) as [|x xs IHx]; intros l1 E; [exists l1; auto|]. destruct l1 as [|y l1]; cbn in E; injection E as -> E; [destruct (NE t); left; reflexivity|].
          destruct (IHx ltac:(intros t' I; apply (NE t'); right; auto) l1 E) as (l1' & -> & ->). exists l1'. auto. }
        destruct X as (l1' & -> & ->). destruct (IH _ _ _ _ _ _ _ GR eq_refl) as [-> A]. split; auto. rewrite at_ends_app, A, app_nil_r. clear - NE. induction (map (fun a => (g_sched g, a)) acts) as [|[x []] xs IHx]; [auto| |destruct (NE x); left; auto]. cbn. apply IHx. intros t' I. apply (NE t'). right. auto.
      * injection H as <- <-. exfalso. apply (NE t). rewrite E. apply in_or_app. right. left. reflexivity.
    + rewrite ended_run in H. injection H as <- <-. rewrite app_nil_r in E. rewrite map_app in E. cbn [map] in E.
      assert (NE : forall t', ~ In (t', AtEnd) (map (fun a => (g_sched g, a)) k)). { intros t' I. apply in_map_iff in I. destruct I as (a & I1 & I2). injection I1 as <- ->. apply (NO AtEnd I2). reflexivity. }
      assert (NA : at_ends (map (fun a => (g_sched g, a)) k) = []). { clear - NE. induction (map (fun a => (g_sched g, a)) k) as [|[x []] xs IHx]; [auto| |destruct (NE x); left; auto]. cbn. apply IHx. intros t' I. apply (NE t'). right. auto. }
      destruct l2 as [|x l2 _] using rev_ind.
      * split; auto. apply app_inj_tail in E. destruct E as [<- _]. auto.
      * exfalso. change (l1 ++ (t, AtEnd) :: l2 ++ [x]) with (l1 ++ ((t, AtEnd) :: l2) ++ [x]) in E. rewrite app_assoc in E. apply app_inj_tail in E. destruct E as [E _]. apply (NE t). rewrite E. apply in_or_app. right. left. reflexivity.
Qed.

(** ** Disturbances with force_at *)
Section forced.
  Variables (iat dist : draw) (at_ : Q).
  Hypothesis (PI : forall k, 0 <= drawn iat k) (PD : forall k, 0 <= drawn dist k).
  Let A := arrival at_ (drawn iat) true.
  Let B (k : nat) : Q := A k + drawn dist (k - 1).
  Definition at_forced (g : gen) (j : nat) : Prop := (1 <= j)%nat /\ g_proc g = PDist /\ g_iat g = iat /\ g_dist g = dist /\ g_force g = true /\ g_iatk g = (j - 1)%nat /\ g_distk g = (j - 1)%nat /\ (g_n g + 1 = Z.of_nat j)%Z /\ g_sched g == A j /\ g_till g = PInf /\ (match g_number g with None => True | Some m => (Z.of_nat j <= m)%Z end).
  Lemma forced_run : forall n i j g, at_forced g j -> exists l g1, grun no_reset i n g = (l, GOk g1) /\
    same (starts l) (map B (seq j (match g_number g with None => n | Some m => min n (Z.to_nat m + 1 - j) end))) /\ same (creations l) (map A (seq j (match g_number g with None => n | Some m => min n (Z.to_nat m + 1 - j) end))).
  Proof.
    induction n as [|n IH]; intros i j g (J1 & PR & IA & DI & FO & IK & DK & N & SC & TI & NU).
    - exists [], g. split; [reflexivity|]. replace (match g_number g with None => 0%nat | Some m => min 0 (Z.to_nat m + 1 - j) end) with 0%nat by (destruct (g_number g); auto). split; constructor.
    - cbn [grun]. unfold resume at 1. rewrite PR, FO, IA, DI, IK, DK, N.
      assert (CNT : (match g_number g with None => S n | Some m => min (S n) (Z.to_nat m + 1 - j) end) = S (match g_number g with None => n | Some m => min n (Z.to_nat m + 1 - S j) end)) by (destruct (g_number g) as [m|]; [lia|reflexivity]).
      rewrite CNT. cbn [seq map]. clear CNT. set (t := g_sched g + drawn dist (j - 1)).
      assert (AJ : A (S j) == A j + drawn iat (j - 1)) by (unfold A; destruct j as [|j]; [lia|]; rewrite arrival_S; cbn [Nat.sub]; rewrite Nat.sub_0_r; reflexivity).
      assert (T : t == B j) by (unfold t, B; rewrite SC; reflexivity). unfold beyond. rewrite TI. pose proof (PI (j - 1)) as PI1. pose proof (PD (j - 1)) as PD1.
      assert (X : Qltb (t + no_reset i) (g_sched g) = false) by (apply Qltb_false_iff; unfold no_reset, t; lra). rewrite X. destruct (enough g (Z.of_nat j)) eqn:EN.
      + cbn [map]. rewrite ended_run, app_nil_r. do 2 eexists. split; [reflexivity|]. unfold enough in EN. destruct (g_number g) as [m|]; [|discriminate]. apply Z.leb_le in EN. assert (M0 : min n (Z.to_nat m + 1 - S j) = 0%nat) by lia. rewrite M0. cbn. split; (constructor; [|constructor]); [rewrite T; unfold no_reset; ring|auto].
      + unfold resched. assert (X2 : Qltb (g_sched g + drawn iat (j - 1) + no_reset i) (g_sched g) = false) by (apply Qltb_false_iff; unfold no_reset; lra). rewrite X2.
        set (g2 := w_sched PDist (g_sched g + drawn iat (j - 1) + no_reset i) (w_count (S (j - 1)) (S (j - 1)) (Z.of_nat j) g)). destruct (IH (S i) (S j) g2) as (l & g1 & R & ST & CR).
        { unfold at_forced, g2. cbn [w_sched w_count g_proc g_iat g_dist g_force g_iatk g_distk g_n g_sched g_till g_number]. split; [lia|]. do 4 (split; [auto|]). split; [lia|]. split; [lia|]. split; [lia|]. split; [rewrite AJ, SC; unfold no_reset; ring|].
          split; auto. unfold enough in EN; destruct (g_number g); auto; apply Z.leb_gt in EN; lia. }
        rewrite R. cbn [map]. do 2 eexists. split; [reflexivity|]. rewrite starts_app, creations_app. cbn [starts creations flat_map snd fst app] in *. split; (constructor; [|auto]); [rewrite T; unfold no_reset; ring|auto].
  Qed.
End forced.
(** With force_at and no end (till, duration), the first component is made at the start of the generation and each further one an inter arrival time later; each starts its disturbance later. *)
Theorem C50_disturbance_force_at : forall now us a iat dist g n, a_iat a = Some iat -> a_dist a = Some dist -> truthy (a_dist a) = true -> (forall k, 0 <= drawn iat k) -> (forall k, 0 <= drawn dist k) -> a_force_at a = true -> a_moments a = None ->
  a_till a = None -> a_dur a = None -> (match a_number a with None => True | Some m => (1 <= m)%Z end) -> new_gen now 0 us a = GOk g -> exists l g1, grun no_reset 0 n g = (l, GOk g1) /\
  same (creations l) (map (arrival (at_of now a) (drawn iat) true) (seq 1 (limit (a_number a) n))) /\
  same (starts l) (map (fun k => arrival (at_of now a) (drawn iat) true k + drawn dist (k - 1)) (seq 1 (limit (a_number a) n))).
Proof.
  intros now us a iat dist g n IA DI TR PI PD FA MO TI DU NUM H. unfold new_gen in H. rewrite MO, IA, TR, DI, FA, TI, DU in H.
  assert (GO : forall at_, at_ == at_of now a -> new_iat now 0 at_ PInf (a_number a) iat true false (Some dist) true = GOk g -> exists l g1, grun no_reset 0 n g = (l, GOk g1) /\
    same (creations l) (map (arrival (at_of now a) (drawn iat) true) (seq 1 (limit (a_number a) n))) /\ same (starts l) (map (fun k => arrival (at_of now a) (drawn iat) true k + drawn dist (k - 1)) (seq 1 (limit (a_number a) n)))).
  { intros at_ AT NI. assert (G : g = mkgen PDist (at_ + 0) PInf (a_number a) iat 0 dist 0 true [] 0) by (unfold new_iat, start in NI; destruct (Qltb (at_ + 0) now); try discriminate; injection NI as <-; reflexivity).
    assert (A0 : arrival at_ (drawn iat) true 1 == at_) by (unfold arrival; cbn; ring). destruct (forced_run iat dist at_ PI PD n 0 1 g) as (l & g1 & R & ST & CR).
    { subst g. unfold at_forced. cbn [g_proc g_iat g_dist g_force g_iatk g_distk g_n g_sched g_till g_number Nat.sub]. split; [lia|]. do 7 (split; [reflexivity|]). split; [rewrite A0; ring|]. split; [reflexivity|exact NUM]. }
    exists l, g1. split; auto. subst g. cbn [g_till g_number] in ST, CR. unfold limit. replace (match a_number a with None => n | Some m => min n (Z.to_nat m) end) with (match a_number a with None => n | Some m => min n (Z.to_nat m + 1 - 1) end) by (destruct (a_number a); auto; f_equal; lia).
    split; (eapply same_trans; [eassumption|]; apply same_map; intro k; rewrite (arrival_ext _ _ _ _ _ AT); reflexivity). }
  destruct (a_at a) as [ta|] eqn:AT; destruct (a_delay a) as [de|] eqn:DE; try discriminate.
  all: cbn [gbind xltb xleb negb] in H; try discriminate.
  all: match type of H with (if ?b then _ else _) = _ => destruct b; [discriminate|] end.
  all: assert (N1 : (match a_number a with None => false | Some n => (n <? 1)%Z end) = false) by (destruct (a_number a); auto; apply Z.ltb_ge; auto).
  all: rewrite N1 in H; destruct (a_equi a) eqn:EQ; [discriminate|].
  all: assert (FT : a_force_till a = false) by (destruct (a_force_till a); auto; discriminate); rewrite FT in H.
  all: refine (GO _ _ H); unfold at_of; rewrite ?AT, ?DE; cbn; auto; try ring.
Qed.
Example C50_case_force_at : exists g, new_gen 0 0 (fun _ => 0) (only_iat (Some 3%Z) None 10 (Some (DCall (fun k => inject_Z (Z.of_nat k)))) true) = GOk g /\ exists l g1, grun no_reset 0 30 g = (l, GOk g1) /\ same (starts l) [0; 11; 22] /\ same (creations l) [0; 10; 20].
Proof. eexists. split; [reflexivity|]. do 2 eexists. split; [reflexivity|]. split; repeat constructor. Qed.
(** components at 6, 8, 11, then at_end at 11, last *)
Example C50_case_at_end_last : exists g, new_gen 0 0 (fun _ => 0) (only_iat (Some 3%Z) None 2 None false) = GOk g /\ exists t l g1, grun no_reset 0 30 g = (l ++ [(t, AtEnd)], GOk g1) /\ length l = 3%nat.
Proof. eexists. split; [reflexivity|]. eexists. eexists [_; _; _]. eexists. split; reflexivity. Qed.
Print Assumptions C50_at_end_last.
Print Assumptions C50_disturbance_force_at.
