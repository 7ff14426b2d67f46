(** Properties C51 and C52: generators and reset_now; equidistant generation, random spread and moments. *)
From Coq Require Import QArith Qminmax Lqa List Bool Arith ZArith Lia Sorted Permutation.
From Verif Require Import Base Util PropUtil Gen PropGen.
Import ListNotations.
Open Scope Q_scope.

Lemma last_cons : forall (a d : Q) l, l <> [] -> last (a :: l) d = last l d. Proof. intros a d [|x l] H; [congruence|reflexivity]. Qed.
(** ** runs of do_spread *)
Lemma spread_loop : forall offs off rest t0 i N g, g_proc g = PSpread -> g_sched g == t0 + off -> g_intervals g = diffs t0 rest -> Sorted Qle (t0 :: rest) ->
  exists l g1, grun offs i N g = (l, GOk g1) /\ same (starts l) (map (fun m => m + off) (firstn N (t0 :: rest))) /\ starts l = creations l /\ same (at_ends l) (if (length (t0 :: rest) <=? N)%nat then [last (t0 :: rest) 0 + off] else []).
Proof.
  intros offs off rest. induction rest as [|t1 rest IH]; intros t0 i N g PR SC IN SO.
  - destruct N as [|N]; [do 2 eexists; split; [reflexivity|]; repeat split; constructor|]. cbn [grun]. unfold resume. rewrite PR, IN. cbn [diffs map]. rewrite ended_run. do 2 eexists. split; [reflexivity|]. cbn [starts creations at_ends flat_map snd fst app firstn map length last]. rewrite firstn_nil.
    cbn. split; [constructor; auto; constructor|]. split; [reflexivity|]. constructor; auto.
  - destruct N as [|N]; [do 2 eexists; split; [reflexivity|]; repeat split; constructor|]. cbn [grun]. unfold resume. rewrite PR, IN. cbn [diffs]. inversion SO as [|? ? S1 H1]; subst. inversion H1; subst.
    unfold resched. assert (X : Qltb (g_sched g + (t1 - t0)) (g_sched g) = false) by (apply Qltb_false_iff; lra). rewrite X. set (g2 := w_sched PSpread (g_sched g + (t1 - t0)) (w_int (diffs t1 rest) g)).
    destruct (IH t1 (S i) N g2) as (l & g1 & R & ST & CR & AE); auto; [unfold g2; cbn; rewrite SC; ring|]. rewrite R. do 2 eexists. split; [reflexivity|]. rewrite starts_app, creations_app, at_ends_app. cbn [map starts creations at_ends flat_map snd fst app firstn] in *.
    split; [constructor; auto|]. split; [rewrite CR; reflexivity|]. rewrite last_cons by discriminate. exact AE.
Qed.
Lemma spread_run : forall now off till number fa ms g offs N, Sorted Qle ms -> new_spread now off till number fa ms = GOk g ->
  exists l g1, grun offs 0 N g = (l, GOk g1) /\ same (starts l) (map (fun m => m + off) (firstn (N - 1) ms)) /\ starts l = creations l /\ same (at_ends l) (if (length ms <? N)%nat then [last ms 0 + off] else []).
Proof.
  intros now off till number fa ms g offs N SO H. unfold new_spread in H. destruct ms as [|m ms]; [discriminate|]. cbn [diffs] in H. unfold start in H. destruct (Qltb (m - 0 + off) now); [discriminate|]. injection H as <-.
  destruct N as [|N]; [do 2 eexists; split; [reflexivity|]; repeat split; constructor|]. cbn [grun]. unfold resume. cbn [g_proc g_intervals g_sched]. unfold resched. assert (X : Qltb (m - 0 + off + 0) (m - 0 + off) = false) by (apply Qltb_false_iff; lra). rewrite X. cbn [Nat.sub]. rewrite Nat.sub_0_r.
  match goal with |- context [grun offs 1 N ?g] => destruct (spread_loop offs off ms m 1%nat N g) as (l & g1 & R & ST & CR & AE); auto; [cbn; ring|] end. rewrite R. do 2 eexists. split; [reflexivity|]. cbn [map app]. split; auto.
Qed.

(** ** Properties *)
Definition until (a : gargs) (n : nat) : Prop := a_number a = Some (Z.of_nat n) /\ (1 <= n)%nat.
(** *** moments *)
Lemma insq_perm : forall x l, Permutation (insq x l) (x :: l).
Proof. intros x l. induction l as [|y l IH]; cbn; auto. destruct (Qltb x y); auto. rewrite IH. apply perm_swap. Qed.
Lemma sortq_perm : forall l, Permutation (sortq l) l.
Proof. induction l as [|x l IH]; cbn; auto. rewrite insq_perm, IH. reflexivity. Qed.
Lemma insq_sorted : forall x l, Sorted Qle l -> Sorted Qle (insq x l).
Proof.
  intros x l H. induction H as [|y l S IH HD]; cbn; [repeat constructor|]. destruct (Qltb x y) eqn:E; [apply Qltb_iff in E; constructor; [constructor; auto|constructor; lra]|]. apply Qltb_false_iff in E. constructor; auto.
  destruct l as [|z l]; cbn; [constructor; auto|]. inversion HD; subst. destruct (Qltb x z); constructor; auto.
Qed.
Lemma sortq_sorted : forall l, Sorted Qle (sortq l). Proof. induction l; cbn; [constructor|apply insq_sorted; auto]. Qed.
(** A generator with moments creates one component at each of them, in the order of time, whatever the sequence of calls of reset_now: the moments are those at the time of the call (offset off), and calls at_end once, at the last one. *)
Theorem C52_moments : forall now off us a ms g, a_moments a = Some ms -> ms <> [] -> a_number a <> Some 0%Z -> new_gen now off us a = GOk g -> exists ms', Permutation ms' ms /\ Sorted Qle ms' /\
  forall offs N, (length ms < N)%nat -> exists l g1, grun offs 0 N g = (l, GOk g1) /\ same (starts l) (map (fun m => m + off) ms') /\ starts l = creations l /\ same (at_ends l) [last ms' 0 + off].
Proof.
  intros now off us a ms g MO NE NZ H. exists (sortq ms). split; [apply sortq_perm|]. split; [apply sortq_sorted|]. unfold new_gen in H. rewrite MO in H.
  match type of H with (if ?b then _ else _) = _ => destruct b eqn:ANY; [discriminate|] end. rewrite !orb_false_iff in ANY. destruct ANY as (((((((((A1 & A2) & A3) & A4) & A5) & A6) & A7) & A8) & A9) & A10). rewrite A9 in H.
  assert (NU : a_number a = None). { destruct (a_number a) as [n|]; auto. apply negb_false_iff, Z.eqb_eq in A5. subst. congruence. }
  rewrite NU, A10 in H.
  assert (GO : forall till, new_spread now off till None (a_force_at a) (sortq ms) = GOk g -> forall offs N, (length ms < N)%nat -> exists l g1, grun offs 0 N g = (l, GOk g1) /\ same (starts l) (map (fun m => m + off) (sortq ms)) /\ starts l = creations l /\ same (at_ends l) [last (sortq ms) 0 + off]).
  { intros till NS offs N L. destruct (spread_run now off till None (a_force_at a) (sortq ms) g offs N (sortq_sorted ms) NS) as (l & g1 & R & ST & CR & AE). exists l, g1. split; auto. pose proof (Permutation_length (sortq_perm ms)) as PL. rewrite PL in AE.
    rewrite firstn_all2 in ST by lia. apply Nat.ltb_lt in L. rewrite L in AE. auto. }
  destruct (a_at a); destruct (a_delay a); try discriminate.
  all: destruct (a_till a) as [t|] eqn:TI; destruct (a_dur a) as [du|]; cbn [gbind] in H; try discriminate.
  all: match type of H with (if ?b then _ else _) = _ => destruct b; [discriminate|] end.
  all: destruct ms as [|m ms]; [congruence|eapply GO; exact H].
Qed.
(** *** equidistant *)
Lemma new_gen_equi : forall now us a n g, a_equi a = true -> a_moments a = None -> until a n -> new_gen now 0 us a = GOk g ->
  exists at_ t, at_ == at_of now a /\ xeq (Fin t) (till_arg now a) /\ at_ <= t /\ (n <> 1)%nat /\ new_iat now 0 at_ PInf (a_number a) (DNum ((t - at_) / inject_Z (Z.of_nat n - 1))) true false (if truthy (a_dist a) then a_dist a else None) (a_force_at a) = GOk g.
Proof.
  intros now us a n g EQ MO (NU & N1) H. unfold new_gen in H. rewrite MO, EQ, NU in H. destruct (if truthy (a_dist a) then a_dist a else None) as [di|]; destruct (a_iat a) as [ia|] eqn:IA; cbn [negb] in H.
  all: destruct (a_at a) as [ta|] eqn:AT; destruct (a_delay a) as [de|] eqn:DE; try discriminate.
  all: destruct (a_till a) as [t|] eqn:TI; destruct (a_dur a) as [du|] eqn:DU; cbn [gbind] in H; try discriminate.
  all: match type of H with (if ?b then _ else _) = _ => destruct b eqn:LT; [discriminate|] end.
  all: match type of H with (if ?b then _ else _) = _ => destruct b; [discriminate|] end.
  all: match type of H with (if ?b then _ else _) = _ => destruct b eqn:L1; [apply Z.ltb_lt in L1; lia|] end.
  all: try discriminate.
  all: match type of H with match ?t with _ => _ end = _ => destruct t as [q|] eqn:TT; [|discriminate] end.
  all: match type of H with (if ?b then _ else _) = _ => destruct b eqn:E1; [discriminate|] end; apply Z.eqb_neq in E1; apply xltb_false_iff in LT.
  all: unfold at_of, till_arg; rewrite ?NU, ?AT, ?DE, ?TI, ?DU; eexists; exists q; (split; [|split; [|split; [|split; [|exact H]]]]); [try reflexivity; ring| |exact LT|lia].
  all: try (destruct t as [t|]; [|discriminate]); try (destruct du as [du|]; [|discriminate]); cbn in TT; try injection TT as <-; unfold at_of; rewrite ?AT, ?DE; cbn; ring.
Qed.
(** Equidistant generation: number components, evenly from at to till, the first exactly at at and the last exactly at till; at_end once, at till. *)
Theorem C52_equidistant : forall now us a n g t N, a_equi a = true -> truthy (a_dist a) = false -> a_moments a = None -> until a n -> new_gen now 0 us a = GOk g -> till_arg now a = Fin t -> (n <= N)%nat ->
  exists l g1, grun no_reset 0 N g = (l, GOk g1) /\ same (starts l) (map (fun k => at_of now a + inject_Z (Z.of_nat k) * ((t - at_of now a) / inject_Z (Z.of_nat n - 1))) (seq 0 n)) /\ starts l = creations l /\ same (at_ends l) [t].
Proof.
  intros now us a n g t N EQ DI MO UN H T NN. destruct (new_gen_equi now us a n g EQ MO UN H) as (at_ & t' & AT & TT & LE & N1 & NI). rewrite T in TT. cbn in TT. rewrite DI in NI. destruct UN as (NU & N0).
  set (step := (t' - at_) / inject_Z (Z.of_nat n - 1)) in *. assert (P1 : 0 < inject_Z (Z.of_nat n - 1)) by (change 0 with (inject_Z 0); rewrite <- Zlt_Qlt; lia).
  assert (POS : 0 <= step) by (unfold step; apply Qle_shift_div_l; auto; lra). destruct (new_iat_run now at_ PInf (a_number a) (DNum step) true (a_force_at a) g N (fun _ => POS) ltac:(rewrite NU; lia) NI) as (l & g1 & R & ST & CR & AE).
  assert (ARR : forall k, arrival at_ (drawn (DNum step)) true (S k) == at_ + inject_Z (Z.of_nat k) * step).
  { intro k. unfold arrival. cbn [Nat.sub]. rewrite Nat.sub_0_r. induction k as [|k IH]; [cbn; ring|]. rewrite sumQ_seq_S, Nat2Z.inj_succ. unfold Z.succ. rewrite inject_Z_plus. change (inject_Z 1) with 1. cbn [drawn]. lra. }
  exists l, g1. split; auto. assert (UPI : forall l, upto PInf l = l) by (induction l0; cbn; congruence). rewrite NU in *. unfold limit in ST. rewrite Nat2Z.id, Nat.min_r, UPI in ST by lia. split; [|split; auto].
  - eapply same_trans; [exact ST|]. rewrite <- seq_shift, map_map. apply same_map. intro k. rewrite ARR, AT. unfold step. rewrite AT, TT. reflexivity.
  - rewrite ends_number in AE; auto; try lia; [|apply arrival_mono; intro; cbn; auto]. destruct n as [|n]; [lia|]. eapply same_trans; [exact AE|]. constructor; [|constructor]. rewrite ARR. unfold step. rewrite <- TT. replace (Z.of_nat (S n) - 1)%Z with (Z.of_nat n) in * by lia. field. lra.
Qed.
(** *** random spread *)
Lemma hd_le : forall l x d, Sorted Qle l -> In x l -> hd d l <= x.
Proof. intros l x d SO IN. apply Sorted_StronglySorted in SO; [|intros a b c; apply Qle_trans]. inversion SO as [|y l0 S F]; subst; [destruct IN|]. cbn. destruct IN as [<-|IN]; [lra|]. rewrite Forall_forall in F. auto. Qed.
Lemma last_ge : forall l x d, Sorted Qle l -> In x l -> x <= last l d.
Proof.
  intros l x d SO. apply Sorted_StronglySorted in SO; [|intros a b c; apply Qle_trans]. induction SO as [|y l S IH F]; intros IN; [destruct IN|]. destruct l as [|z l]; [destruct IN as [<-|[]]; cbn; lra|].
  rewrite last_cons by discriminate. destruct IN as [<-|IN]; [|auto]. rewrite Forall_forall in F. assert (I : In (last (z :: l) d) (z :: l)). { clear. revert z. induction l as [|w l IH]; intro z; [left; auto|]. rewrite last_cons by discriminate. right. apply IH. }
  apply F. auto.
Qed.
Lemma last_in : forall (l : list Q) d, l <> [] -> In (last l d) l.
Proof. intros l d. induction l as [|x [|y l] IH]; intro H; [congruence|left; auto|]. rewrite last_cons by discriminate. right. apply IH. discriminate. Qed.
Lemma all_some_map : forall (f : Q -> option Q) (h : Q -> Q) l, (forall x, In x l -> f x = Some (h x)) -> all_some (map f l) = Some (map h l).
Proof. induction l as [|x l IH]; intro H; cbn; auto. rewrite (H x) by (left; auto). rewrite IH by (intros; apply H; right; auto). reflexivity. Qed.
Lemma sorted_map : forall (h : Q -> Q) l, (forall x y, In x l -> In y l -> x <= y -> h x <= h y) -> Sorted Qle l -> Sorted Qle (map h l).
Proof.
  intros h l M S. induction S as [|x l S IH H]; cbn; constructor; [apply IH; intros; apply M; cbn; auto|]. inversion H; subst; cbn; constructor. apply M; cbn; auto.
Qed.
Lemma last_map : forall (h : Q -> Q) l, l <> [] -> last (map h l) 0 = h (last l 0).
Proof. intros h l. induction l as [|x [|y l] IH]; intro NE; [congruence|reflexivity|]. cbn [map] in *. rewrite last_cons by discriminate. rewrite (last_cons x) by discriminate. apply IH. discriminate. Qed.
Definition point (at_ t u : Q) : Q := at_ + (t - at_) * u.
(** the moments of a random spread *)
Lemma spread_ok : forall at_ t n fa ft us ms, at_ <= t -> (1 <= n)%nat -> (forall i, 0 <= us i < 1) -> spread_moments at_ (Some t) n fa ft us = GOk ms ->
  length ms = n /\ Sorted Qle ms /\ (forall m, In m ms -> at_ <= m <= t) /\ (fa = false -> ft = false -> Permutation ms (map (fun i => point at_ t (us i)) (seq 0 n))) /\
  (ft = true -> last ms 0 == t) /\ (fa = true -> n = 1%nat \/ (exists i j, (i < n)%nat /\ (j < n)%nat /\ ~ point at_ t (us i) == point at_ t (us j)) -> hd 0 ms == at_).
Proof.
  intros at_ t n fa ft us ms LE N U H. unfold spread_moments in H. assert (X : Qltb t at_ = false) by (apply Qltb_false_iff; auto). rewrite X in H.
  assert (PT : forall i, at_ <= point at_ t (us i) <= t). { intro i. destruct (U i) as [U0 U1]. unfold point. assert (0 <= (t - at_) * us i) by (apply Qmult_le_0_compat; lra). assert (0 <= (t - at_) * (1 - us i)) by (apply Qmult_le_0_compat; lra). lra. }
  set (raw := map (fun i => spread_one at_ (Some t) (us i)) (seq 0 n)) in *. assert (RAW : raw = map (fun i => point at_ t (us i)) (seq 0 n)) by reflexivity. set (ps := sortq raw) in *.
  assert (PERM : Permutation ps raw) by apply sortq_perm. assert (SO : Sorted Qle ps) by apply sortq_sorted. assert (LEN : length ps = n) by (rewrite (Permutation_length PERM), RAW, map_length, seq_length; reflexivity).
  assert (RNG : forall m, In m ps -> at_ <= m <= t) by (intros m IN; apply (Permutation_in _ PERM) in IN; rewrite RAW in IN; apply in_map_iff in IN; destruct IN as (i & <- & _); apply PT).
  destruct (fa || ft) eqn:FF.
  2:{ injection H as <-. apply orb_false_iff in FF. destruct FF as [-> ->]. split; auto. split; auto. split; auto. split; [intros; rewrite <- RAW; auto|]. split; intro; discriminate. }
  destruct (n =? 1)%nat eqn:N1.
  { apply Nat.eqb_eq in N1. subst n. destruct fa, ft; try discriminate; cbn [andb] in H; injection H as <-; (split; [reflexivity|]; split; [repeat constructor|]; split; [intros m [<-|[]]; lra|]; split; [discriminate|]; split; intros; try discriminate; cbn; reflexivity). }
  apply Nat.eqb_neq in N1. assert (NE : ps <> []) by (intro E; rewrite E in LEN; cbn in LEN; lia). set (lo := hd 0 ps) in *. set (hi := lastq ps) in *.
  assert (LOIN : In lo ps) by (unfold lo; destruct ps; [congruence|left; auto]). assert (HIIN : In hi ps) by (unfold hi, lastq; apply last_in; auto).
  assert (LH : forall m, In m ps -> lo <= m <= hi) by (intros m IN; split; [apply hd_le; auto|apply last_ge; auto]).
  set (va := if fa then at_ else lo). set (vt := if ft then t else hi). assert (VA : (if fa then Some at_ else hd_error ps) = Some va) by (unfold va, lo; destruct fa; auto; destruct ps; [congruence|reflexivity]). assert (VT : (if ft then Some t else Some hi) = Some vt) by (unfold vt; destruct ft; auto).
  rewrite VA, VT in H. destruct (RNG _ LOIN) as [A1 A2]. destruct (RNG _ HIIN) as [B1 B2]. destruct (LH _ HIIN) as [C1 _]. assert (VV : va <= vt) by (unfold va, vt; destruct fa, ft; lra). assert (VR : at_ <= va /\ vt <= t) by (unfold va, vt; destruct fa, ft; lra).
  destruct (Qlt_le_dec lo hi) as [LT|GE].
  - set (h := fun m => match interpolate1 m (Fin lo) (Fin hi) (Some va) (Some vt) with Some z => z | None => 0 end).
    assert (HS : forall m, interpolate1 m (Fin lo) (Fin hi) (Some va) (Some vt) = Some (h m)) by (intro m; unfold h; destruct (C54_between lo hi va vt m LT) as (z & -> & _); reflexivity).
    rewrite (all_some_map _ h) in H by (intros; apply HS). injection H as <-. split; [rewrite map_length; auto|].
    assert (MON : forall x y, x <= y -> h x <= h y). { intros x y XY. destruct (C54_monotone lo hi va vt x y LT XY) as (u & v & E1 & E2 & E3 & _). rewrite HS in E1, E2. injection E1 as E1. injection E2 as E2. rewrite E1, E2. auto. }
    split; [apply sorted_map; auto|]. split.
    { intros m IN. apply in_map_iff in IN. destruct IN as (x & <- & _). destruct (C54_between lo hi va vt x LT) as (z & E & Z & _). rewrite HS in E. injection E as E. rewrite E. specialize (Z VV). lra. }
    split; [intros -> ->; discriminate|].
    assert (LASTM : last (map h ps) 0 = h hi). { apply last_map. auto. }
    assert (HDM : hd 0 (map h ps) = h lo) by (unfold lo; destruct ps; [congruence|reflexivity]).
    split; intros E.
    + subst ft. rewrite LASTM. destruct (C54_ends lo hi va vt hi LT) as [_ EE]. specialize (EE ltac:(lra)). rewrite HS in EE. cbn in EE. unfold vt in EE. auto.
    + intros _. subst fa. rewrite HDM. destruct (C54_ends lo hi va vt lo LT) as [EE _]. specialize (EE ltac:(lra)). rewrite HS in EE. cbn in EE. unfold va in EE. auto.
  - assert (EQ : lo == hi) by lra. assert (HS : forall m, exists z, interpolate1 m (Fin lo) (Fin hi) (Some va) (Some vt) = Some z /\ z == vt).
    { intro m. unfold interpolate1, interpolate. cbn [oeqb]. destruct (Qeq_bool va vt) eqn:E; [apply Qeq_bool_iff in E; eauto|]. assert (Y : xltb (Fin hi) (Fin lo) = false) by (apply xltb_false_iff; cbn; lra). rewrite Y. assert (Z : Qeq_bool lo hi = true) by (apply Qeq_bool_iff; auto). rewrite Z. exists vt. split; auto. reflexivity. }
    set (h := fun m => match interpolate1 m (Fin lo) (Fin hi) (Some va) (Some vt) with Some z => z | None => 0 end).
    assert (HE : forall m, interpolate1 m (Fin lo) (Fin hi) (Some va) (Some vt) = Some (h m) /\ h m == vt) by (intro m; unfold h; destruct (HS m) as (z & -> & Z); auto).
    rewrite (all_some_map _ h) in H by (intros; apply HE). injection H as <-. split; [rewrite map_length; auto|].
    split; [apply sorted_map; auto; intros x y _ _ _; rewrite (proj2 (HE x)), (proj2 (HE y)); lra|]. split; [intros m IN; apply in_map_iff in IN; destruct IN as (x & <- & _); rewrite (proj2 (HE x)); lra|]. split; [intros -> ->; discriminate|]. split.
    + intros ->. assert (I : In (last (map h ps) 0) (map h ps)) by (apply last_in; destruct ps; [congruence|discriminate]). apply in_map_iff in I. destruct I as (x & E & _). rewrite <- E. apply HE.
    + intros -> [->|(i & j & I & J & NEQ)]; [congruence|]. exfalso. apply NEQ. assert (IN : forall i, (i < n)%nat -> In (point at_ t (us i)) ps) by (intros k K; apply (Permutation_in _ (Permutation_sym PERM)); rewrite RAW; apply in_map_iff; exists k; split; auto; apply in_seq; lia).
      pose proof (LH _ (IN i I)). pose proof (LH _ (IN j J)). lra.
Qed.
Definition is_spread (now : Q) (a : gargs) (n : nat) (t : Q) : Prop := a_iat a = None /\ a_equi a = false /\ a_moments a = None /\ until a n /\ a_till a = Some (Fin t) /\ a_dur a = None.
Lemma new_gen_spread : forall now us a n t g, is_spread now a n t -> new_gen now 0 us a = GOk g ->
  exists at_ till ms, at_ == at_of now a /\ at_ <= t /\ spread_moments at_ (Some t) n (a_force_at a) (a_force_till a) us = GOk ms /\ new_spread now 0 till (a_number a) (a_force_at a) ms = GOk g.
Proof.
  intros now us a n t g (IA & EQ & MO & (NU & N1) & TI & DU) H. unfold new_gen in H. rewrite IA, EQ, MO, NU, TI, DU in H. cbn [negb] in H. destruct (if truthy (a_dist a) then a_dist a else None); [discriminate|].
  destruct (a_at a) as [ta|] eqn:AT; destruct (a_delay a) as [de|] eqn:DE; try discriminate; cbn [gbind] in H.
  all: match type of H with (if ?b then _ else _) = _ => destruct b eqn:LT; [discriminate|] end; apply xltb_false_iff in LT; cbn in LT.
  all: match type of H with (if ?b then _ else _) = _ => destruct b; [discriminate|] end.
  all: match type of H with (if ?b then _ else _) = _ => destruct b eqn:L1; [apply Z.ltb_lt in L1; lia|] end.
  all: destruct (a_dist a); [discriminate|]. all: match type of H with gbind ?m _ = _ => destruct m as [ms|] eqn:M; [|discriminate] end; cbn [gbind] in H; rewrite Nat2Z.id in M; rewrite NU.
  all: unfold at_of; rewrite ?AT, ?DE; do 3 eexists; (split; [|split; [|split; [exact M|exact H]]]); [ring|lra].
Qed.
(** Random spread: exactly number components, in the order of time, all between at and till, each created at its time; without force they are the drawn times; with force_till the last is at till; with force_at the first is at at, unless all draws give the same time; at_end once, at the last one.
    Calls of reset_now while it runs make no difference. *)
Theorem C52_spread : forall now us a n t g, is_spread now a n t -> (forall i, 0 <= us i < 1) -> new_gen now 0 us a = GOk g ->
  exists ms, length ms = n /\ Sorted Qle ms /\ (forall m, In m ms -> at_of now a <= m <= t) /\
    (a_force_at a = false -> a_force_till a = false -> exists ps, same ms ps /\ Permutation ps (map (fun i => point (at_of now a) t (us i)) (seq 0 n))) /\
    (a_force_till a = true -> last ms 0 == t) /\ (a_force_at a = true -> n = 1%nat \/ (exists i j, (i < n)%nat /\ (j < n)%nat /\ ~ point (at_of now a) t (us i) == point (at_of now a) t (us j)) -> hd 0 ms == at_of now a) /\
    forall offs N, (n < N)%nat -> exists l g1, grun offs 0 N g = (l, GOk g1) /\ same (starts l) ms /\ starts l = creations l /\ same (at_ends l) [last ms 0].
Proof.
  intros now us a n t g SP U H. destruct (new_gen_spread now us a n t g SP H) as (at_ & till & ms & AT & LE & M & NS). destruct SP as (_ & _ & _ & (NU & N1) & _). destruct (spread_ok at_ t n _ _ us ms LE N1 U M) as (L & SO & RNG & PM & FT & FA).
  exists ms. split; auto. split; auto. split; [intros m IN; specialize (RNG m IN); lra|]. split.
  { intros E1 E2. specialize (PM E1 E2). assert (X : forall l1 l2, Permutation l1 l2 -> forall l3, same l2 l3 -> exists l4, same l1 l4 /\ Permutation l4 l3).
    { clear. intros l1 l2 P. induction P; intros l3 S.
      - inversion S; subst. exists []. split; constructor.
      - inversion S; subst. destruct (IHP _ H3) as (l4 & A & B). eexists (y :: l4). split; [constructor; auto|constructor; auto].
      - inversion S as [|? y1 ? lx E1 S1]; subst. inversion S1 as [|? y2 ? ly E2 S2]; subst. exists (y2 :: y1 :: ly). split; [repeat (constructor; auto)|apply perm_swap].
      - destruct (IHP2 _ S) as (l4 & A & B). destruct (IHP1 _ A) as (l5 & C & D). exists l5. split; auto. etransitivity; eauto. }
    apply (X _ _ PM). apply same_map. intro i. unfold point. rewrite AT. reflexivity. }
  split; auto. split; [intros E X; rewrite <- AT; apply FA; auto; destruct X as [X|(i & j & I & J & NE)]; auto; right; exists i, j; split; auto; split; auto; intro E2; apply NE; unfold point in *; rewrite <- AT; exact E2|].
  intros offs N LN. destruct (spread_run now 0 till (a_number a) (a_force_at a) ms g offs N SO NS) as (l & g1 & R & ST & CR & AE). exists l, g1. split; auto. rewrite firstn_all2 in ST by lia. rewrite L in AE. apply Nat.ltb_lt in LN. rewrite LN in AE.
  assert (Z : same (map (fun m => m + 0) ms) ms) by (clear; induction ms; constructor; auto; ring). split; [eapply same_trans; eauto|]. split; auto. eapply same_trans; [exact AE|]. constructor; [ring|constructor].
Qed.
(** *** where the statements fail *)
Definition spread_args (dur : option xq) (number : Z) (fa : bool) : gargs := mkga None None None dur (Some number) None fa false None false None.
(** With duration instead of till, all components are generated at the start: whatever is drawn. *)
Theorem C52_duration_refuted : exists a g, a_dur a = Some (Fin 100) /\ a_number a = Some 3%Z /\ (forall us, (forall i, 0 <= us i < 1) -> exists g', new_gen 0 0 us a = GOk g' /\ forall N, (3 < N)%nat -> exists l g1, grun no_reset 0 N g' = (l, GOk g1) /\ same (starts l) [0; 0; 0]) /\ new_gen 0 0 (fun _ => 1 # 2) a = GOk g.
Proof.
  exists (spread_args (Some (Fin 100)) 3 false). eexists. split; [reflexivity|]. split; [reflexivity|]. split; [|reflexivity]. intros us U.
  assert (X : exists ms, spread_moments (0 + 0) None 3 false false us = GOk ms /\ length ms = 3%nat /\ Sorted Qle ms /\ forall m, In m ms -> m == 0).
  { unfold spread_moments. cbn [orb]. eexists. split; [reflexivity|]. pose proof (sortq_perm (map (fun i => spread_one (0 + 0) None (us i)) (seq 0 3))) as P. split; [rewrite (Permutation_length P); reflexivity|]. split; [apply sortq_sorted|].
    intros m IN. apply (Permutation_in _ P) in IN. apply in_map_iff in IN. destruct IN as (i & <- & _). unfold spread_one. ring. }
  destruct X as (ms & M & L & SO & Z). destruct ms as [|m0 [|m1 [|m2 [|]]]]; try discriminate. pose proof (Z m0 (or_introl eq_refl)) as Z0. pose proof (Z m1 (or_intror (or_introl eq_refl))) as Z1. pose proof (Z m2 (or_intror (or_intror (or_introl eq_refl)))) as Z2.
  assert (NS : exists g, new_spread 0 0 (Fin (0 + 0 + 100)) (Some 3%Z) false [m0; m1; m2] = GOk g) by (unfold new_spread, start; cbn [diffs]; assert (E : Qltb (m0 - 0 + 0) 0 = false) by (apply Qltb_false_iff; lra); rewrite E; eauto).
  destruct NS as (g' & NS). exists g'. split.
  - unfold new_gen. change (a_moments (spread_args (Some (Fin 100)) 3 false)) with (@None (list Q)). cbn [spread_args a_at a_delay a_till a_dur a_number a_iat a_dist a_equi a_force_at a_force_till truthy gbind]. change (Z.to_nat 3) with 3%nat. rewrite M. cbn [gbind]. exact NS.
  - intros N LN. destruct (spread_run 0 0 _ _ _ _ g' no_reset N SO NS) as (l & g1 & R & ST & _). exists l, g1. split; auto. rewrite firstn_all2 in ST by (cbn; lia). eapply same_trans; [exact ST|]. cbn. repeat constructor; lra.
Qed.
(** Without till and duration the missing till is not reported. *)
Theorem C52_no_till_refuted : exists a g, a_till a = None /\ a_dur a = None /\ a_iat a = None /\ a_moments a = None /\ a_equi a = false /\ new_gen 0 0 (fun _ => 1 # 2) a = GOk g.
Proof. exists (spread_args None 3 false). eexists. repeat split. Qed.
(** With force_at and equal draws the first component is not generated at at. *)
Theorem C52_force_at_refuted : exists a n t us g, is_spread 0 a n t /\ a_force_at a = true /\ (forall i, 0 <= us i < 1) /\ new_gen 0 0 us a = GOk g /\ exists l g1, grun no_reset 0 30 g = (l, GOk g1) /\ ~ hd 0 (starts l) == at_of 0 a.
Proof.
  exists (mkga None None (Some (Fin 10)) None (Some 2%Z) None true false None false None), 2%nat, 10, (fun _ => 1 # 2). eexists. split; [repeat split; cbn; lia|]. split; [reflexivity|]. split; [intro; lra|]. split; [reflexivity|]. do 2 eexists. split; [vm_compute; reflexivity|]. vm_compute. discriminate.
Qed.
(** Equidistant with a disturbance: all components are one interval late. *)
Theorem C52_disturbance_refuted : exists a g, a_equi a = true /\ a_number a = Some 3%Z /\ (forall k, match a_dist a with Some d => 0 <= drawn d k <= 1 | None => False end) /\ till_arg 0 a = Fin 20 /\ new_gen 0 0 (fun _ => 0) a = GOk g /\ exists l g1, grun no_reset 0 30 g = (l, GOk g1) /\ same (starts l) [11; 21; 31].
Proof.
  exists (mkga None None (Some (Fin 20)) None (Some 3%Z) None false false (Some (DNum 1)) true None). eexists. split; [reflexivity|]. split; [reflexivity|]. split; [intro; cbn; lra|]. split; [reflexivity|]. split; [reflexivity|]. do 2 eexists. split; [vm_compute; reflexivity|]. repeat constructor; reflexivity.
Qed.
(** Equidistant without number: components without end at at. *)
Theorem C52_no_number_refuted : exists a g, a_equi a = true /\ a_number a = None /\ new_gen 0 0 (fun _ => 0) a = GOk g /\ forall N, exists l g1, grun no_reset 0 N g = (l, GOk g1) /\ length (starts l) = N /\ forall x, In x (starts l) -> x == 0.
Proof.
  exists (mkga None None (Some (Fin 20)) None None None false false None true None). eexists. split; [reflexivity|]. split; [reflexivity|]. split; [reflexivity|]. intro N.
  match goal with |- context [grun no_reset 0 N ?g0] => destruct (new_iat_run 0 (0 + 0) PInf None (DNum 0) true false g0 N) as (l & g1 & R & ST & _); [intro; cbn; lra|exact Logic.I|reflexivity|] end.
  exists l, g1. split; [exact R|]. assert (UPI : forall l, upto PInf l = l) by (induction l0; cbn; congruence). rewrite UPI in ST. unfold limit in ST.
  assert (Z : forall k, arrival (0 + 0) (drawn (DNum 0)) true k == 0) by (intro k; unfold arrival; assert (E : forall n, sumQ (map (drawn (DNum 0)) (seq 0 n)) == 0) by (induction n; [reflexivity|rewrite sumQ_seq_S, IHn; reflexivity]); rewrite E; ring).
  assert (X : forall l0 ks, same l0 (map (arrival (0 + 0) (drawn (DNum 0)) true) ks) -> length l0 = length ks /\ forall x, In x l0 -> x == 0).
  { intros l0 ks. revert l0. induction ks as [|k ks IH]; intros l0 S; inversion S as [|xx yy lx ly HE HS]; subst; [split; auto; intros x []|]. destruct (IH _ HS) as [A B]. split; [cbn; auto|]. intros y0 [<-|IN]; auto. rewrite HE. apply Z. }
  destruct (X _ _ ST) as [A B]. rewrite seq_length in A. auto.
Qed.
(** ** C51 *)
(** For generators with moments or a random spread reset_now makes no difference (C52_moments and C52_spread hold for any offsets [offs] in the course of the run). For equal offsets: any two courses of offsets give the same. *)
Theorem C51_spread : forall now off us a n t g ms, (a_moments a = Some ms /\ ms <> [] /\ a_number a <> Some 0%Z) \/ (off = 0 /\ is_spread now a n t /\ forall i, 0 <= us i < 1) -> new_gen now off us a = GOk g ->
  exists k, forall offs offs' N, (k < N)%nat -> exists l g1 l' g1', grun offs 0 N g = (l, GOk g1) /\ grun offs' 0 N g = (l', GOk g1') /\ same (starts l) (starts l') /\ same (at_ends l) (at_ends l').
Proof.
  assert (SY : forall a b, same a b -> same b a) by (intros a b H; induction H; constructor; auto; symmetry; auto).
  intros now off us a n t g ms [(MO & NE & NZ)|(-> & SP & U)] H.
  - destruct (C52_moments now off us a ms g MO NE NZ H) as (ms' & _ & _ & R). exists (length ms). intros offs offs' N L. destruct (R offs N L) as (l & g1 & A & B & _ & C). destruct (R offs' N L) as (l' & g1' & A' & B' & _ & C'). exists l, g1, l', g1'. split; auto. split; auto. split; eapply same_trans; eauto.
  - destruct (C52_spread now us a n t g SP U H) as (ms' & _ & _ & _ & _ & _ & _ & R). exists n. intros offs offs' N L. destruct (R offs N L) as (l & g1 & A & B & _ & C). destruct (R offs' N L) as (l' & g1' & A' & B' & _ & C'). exists l, g1, l', g1'. split; auto. split; auto. split; eapply same_trans; eauto.
Qed.
(** An iat generator changes its pace after reset_now: with every positive offset o, the next component comes iat + o after the last one. *)
Theorem C51_iat_refuted : forall iat o, 0 <= iat -> 0 < o -> exists g, new_gen 0 0 (fun _ => 0) (only_iat None None iat None false) = GOk g /\ exists offs l g1 t0 t1, offs 0%nat = 0 /\ grun offs 0 3 g = (l, GOk g1) /\ nth_error (starts l) 1 = Some t0 /\ nth_error (starts l) 2 = Some t1 /\ t1 - t0 == iat + o.
Proof.
  intros iat o I O. assert (X : Qltb (0 + 0 + iat + 0) 0 = false) by (apply Qltb_false_iff; lra). eexists. split; [unfold new_gen, only_iat; cbn [a_at a_delay a_till a_dur a_number a_iat a_dist a_equi a_force_at a_force_till a_moments truthy gbind xltb]; unfold new_iat, start; cbn [drawn]; rewrite X; reflexivity|].
  exists (fun i => match i with O => 0 | _ => o end). assert (X1 : Qltb (0 + 0 + iat + 0 + iat + 0) (0 + 0 + iat + 0) = false) by (apply Qltb_false_iff; lra). assert (X2 : Qltb (0 + 0 + iat + 0 + iat + 0 + iat + o) (0 + 0 + iat + 0 + iat + 0) = false) by (apply Qltb_false_iff; lra).
  set (z := 0 + 0 + iat + 0) in *. cbn [grun resume g_proc g_sched enough g_number beyond g_till drawn g_iat g_iatk]. unfold resched at 1. rewrite X1. cbn [w_sched w_count grun resume g_proc g_sched enough g_number beyond g_till drawn g_iat g_iatk g_dist g_distk g_force g_intervals g_n]. unfold resched at 1. rewrite X2.
  cbn [w_sched w_count grun resume g_proc g_sched enough g_number beyond g_till drawn g_iat g_iatk g_dist g_distk g_force g_intervals g_n]. unfold resched at 1. assert (X3 : Qltb (z + iat + 0 + iat + o + iat + o) (z + iat + 0 + iat + o) = false) by (apply Qltb_false_iff; lra). rewrite X3.
  do 4 eexists. split; [reflexivity|]. split; [reflexivity|]. cbn. split; [reflexivity|]. split; [reflexivity|]. ring.
Qed.
(** A generator made after reset_now starts at the wrong time: now is 100 and was reset to 0, the generator is to start at 10 with force_at, its first component comes at 110 *)
Theorem C51_new_refuted : exists a g, a_at a = Some 10 /\ a_force_at a = true /\ a_iat a <> None /\ new_gen 100 100 (fun _ => 0) a = GOk g /\ exists l g1, grun (fun _ => 100) 0 1 g = (l, GOk g1) /\ same (map (fun t => t - 100) (starts l)) [110].
Proof. exists (mkga (Some 10) None None None None (Some (DNum 1)) true false None false None). eexists. split; [reflexivity|]. split; [reflexivity|]. split; [discriminate|]. split; [reflexivity|]. do 2 eexists. split; [vm_compute; reflexivity|]. repeat constructor; reflexivity. Qed.
(** ** Cases *)
Example C52_case : exists g, new_gen 3 0 (fun _ => 0) (mkga (Some 10) None (Some (Fin 20)) None (Some 5%Z) None false false None true None) = GOk g /\ exists l g1, grun no_reset 0 7 g = (l, GOk g1) /\ same (starts l) [10; 25 # 2; 15; 35 # 2; 20] /\ same (at_ends l) [20].
Proof. eexists. split; [reflexivity|]. do 2 eexists. split; [vm_compute; reflexivity|]. split; repeat constructor; reflexivity. Qed.
Definition case_us (i : nat) : Q := match i with 0 => 1 # 2 | 1 => 1 # 4 | 2 => 9 # 10 | _ => 3 # 5 end%nat.
Definition case_spread : gargs := mkga (Some 10) None (Some (Fin 20)) None (Some 4%Z) None true true None false None.
Example C52_case_spread : is_spread 0 case_spread 4 20 /\ (forall i, 0 <= case_us i < 1) /\ exists g, new_gen 0 0 case_us case_spread = GOk g /\ exists l g1, grun no_reset 0 7 g = (l, GOk g1) /\ same (starts l) [10; 180 # 13; 200 # 13; 20] /\ same (at_ends l) [20].
Proof.
  split; [repeat split; cbn; lia|]. split; [intro i; destruct i as [|[|[|i]]]; cbn; lra|]. eexists. split; [reflexivity|]. do 2 eexists. split; [vm_compute; reflexivity|]. split; repeat constructor; reflexivity.
Qed.
Example C52_case_moments : exists g, new_gen 5 5 (fun _ => 0) (mkga None None None None None None false false None false (Some [9; 2; 5])) = GOk g /\ exists l g1, grun (fun i => inject_Z (Z.of_nat i)) 0 7 g = (l, GOk g1) /\ same (starts l) [7; 10; 14] /\ same (at_ends l) [14].
Proof. eexists. split; [reflexivity|]. do 2 eexists. split; [vm_compute; reflexivity|]. split; repeat constructor; reflexivity. Qed.
Print Assumptions C52_moments.
Print Assumptions C52_equidistant.
Print Assumptions C52_spread.
Print Assumptions C52_duration_refuted.
Print Assumptions C52_no_till_refuted.
Print Assumptions C52_force_at_refuted.
Print Assumptions C52_disturbance_refuted.
Print Assumptions C52_no_number_refuted.
Print Assumptions C51_spread.
Print Assumptions C51_iat_refuted.
Print Assumptions C51_new_refuted.
