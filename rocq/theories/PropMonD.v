(** Property C44: slices of monitors. *)
From Coq Require Import QArith Qround Lqa List Bool Arith ZArith Lia Permutation Sorted.
From Verif Require Import Base Util PropUtil Mon MonSpec MonP MonQ MonR PropMon PropMonB PropMonC.
Import ListNotations.
Open Scope Q_scope.

(** ** the merge of actions and entries *)
Definition entry (p : Q * val * Q) : Q * act := (time p, Ac (snd (fst p)) (snd p)).
Definition is_start (a : act) : bool := match a with Aa => true | _ => false end.
(** is the slice enabled when an entry at time t is met *)
Fixpoint status (en : bool) (acts : list (Q * act)) (t : Q) : bool :=
  match acts with [] => en | x :: r => if act_leb x (t, Ac (Num 0) 0) then status (is_start (snd x)) r t else en end.
Lemma merge2_cons : forall x a y b, merge2 (x :: a) (y :: b) = if act_leb x y then x :: merge2 a (y :: b) else y :: merge2 (x :: a) b.
Proof. reflexivity. Qed.
Lemma merge2_nil : forall a, merge2 a [] = a.
Proof. destruct a; reflexivity. Qed.
Lemma act_leb_entry : forall x p, act_leb x (entry p) = act_leb x (time p, Ac (Num 0) 0).
Proof. intros x p. unfold act_leb, entry. cbn [fst snd letter]. reflexivity. Qed.
Lemma act_leb_mono : forall x t u, (forall y w, snd x <> Ac y w) -> act_leb x (t, Ac (Num 0) 0) = true -> t <= u -> act_leb x (u, Ac (Num 0) 0) = true.
Proof.
  intros [s a] t u NA. unfold act_leb. cbn [fst snd letter] in *. destruct (Qeq_bool s t) eqn:E1, (Qeq_bool s u) eqn:E2; intros H L; auto.
  - apply Qeqb_true in E1. apply Qeqb_false in E2. apply Qltb_iff. lra.
  - apply Qltb_iff in H. apply Qeqb_false in E1. apply Qeqb_true in E2. exfalso. lra.
  - apply Qltb_iff in H. apply Qltb_iff. lra.
Qed.
Definition no_entry (acts : list (Q * act)) : Prop := forall x, In x acts -> forall y w, snd x <> Ac y w.
Lemma slice_plain_acts : forall acts en e w, no_entry acts -> slice_plain acts en e w = (e, w).
Proof. induction acts as [|[t a] r IH]; intros en e w N; cbn [slice_plain]; auto. assert (NR : no_entry r) by (intros x X; apply N; right; auto). destruct a as [| |x u|]; auto. exfalso. apply (N (t, Ac x u) (or_introl eq_refl) x u). auto. Qed.
Lemma slice_plain_spec : forall acts l en k w, no_entry acts -> on_time_order l -> weights_ok w k ->
  let r := slice_plain (merge2 acts (map entry l)) en (map fst k) w in let f := filter (fun p => status en acts (time p)) l in
  fst r = map fst (rev f ++ k) /\ weights_ok (snd r) (rev f ++ k).
Proof.
  induction acts as [|[s a] acts IHA].
  - induction l as [|p l IH]; intros en k w N S W; cbn zeta; [cbn; auto|]. inversion S as [|? ? S1 F]. subst. specialize (IH en). cbn [merge2 map] in *. destruct p as [[t x] u]. cbn [entry time fst snd slice_plain filter status] in *. destruct en.
    + specialize (IH ((t, x, u) :: k) (add_weight u (length (map fst k)) w) N S1). cbn zeta in IH. cbn [map fst] in IH. cbn [rev]. rewrite <- app_assoc. cbn [app]. apply IH. rewrite map_length. apply weights_add. auto.
    + apply IH; auto.
  - induction l as [|p l IH]; intros en k w N S W; cbn zeta.
    + cbn [map filter rev app]. rewrite merge2_nil, slice_plain_acts; auto.
    + inversion S as [|? ? S1 F]. subst. cbn [map]. rewrite merge2_cons. destruct (act_leb (s, a) (entry p)) eqn:E.
      * assert (NA : no_entry acts) by (intros x X; apply N; right; auto). assert (NE : forall y u, a <> Ac y u) by (intros y u; apply (N (s, a) (or_introl eq_refl))).
        assert (X : slice_plain ((s, a) :: merge2 acts (map entry (p :: l))) en (map fst k) w = slice_plain (merge2 acts (map entry (p :: l))) (is_start a) (map fst k) w) by (destruct a as [| |x u|]; try reflexivity; exfalso; eapply NE; eauto).
        cbn [map] in X. rewrite X.
        assert (Y : filter (fun p => status en ((s, a) :: acts) (time p)) (p :: l) = filter (fun p => status (is_start a) acts (time p)) (p :: l)).
        { apply filter_ext_in. intros q I. cbn [status snd]. rewrite act_leb_entry in E. rewrite (act_leb_mono (s, a) (time p)); auto. destruct I as [<-|I]; [apply Qle_refl|]. rewrite Forall_forall in F. apply F. auto. }
        rewrite Y. apply (IHA (p :: l)); auto.
      * rewrite act_leb_entry in E. cbn [filter]. assert (ST : status en ((s, a) :: acts) (time p) = en) by (cbn [status]; rewrite E; auto). rewrite ST. destruct p as [[t x] u]. cbn [entry time fst snd slice_plain] in *. destruct en.
        -- specialize (IH true ((t, x, u) :: k) (add_weight u (length (map fst k)) w) N S1). cbn zeta in IH. cbn [map fst entry time snd] in IH. cbn [rev]. rewrite <- app_assoc. cbn [app]. apply IH. rewrite map_length. apply weights_add. auto.
        -- apply IH; auto.
Qed.

(** ** monitors that are not level monitors *)
(** the values and weights of entries *)
Definition data_of (ex0 : bool) (l : list (Q * val * Q)) : list (Q * Q) := map (fun p => (number (snd (fst p)), snd p)) (filter (fun p => negb (ex0 && zero (snd (fst p)))) l).
(** the monitor holds exactly the entries l (in order of time), with their weights, and has the statistics of these *)
Definition holds_entries (v : menv) (m : mon) (l : list (Q * val * Q)) : Prop :=
  m_level m = false /\ rev (m_e m) = map fst l /\ weights_ok (m_w m) (rev l) /\ forall ex0, statistics ex0 v m (data_of ex0 l).
Lemma F2_filter : forall (f : Q * val * Q -> bool) l k, (forall p q, same_entry p q -> f p = f q) -> Forall2 same_entry l k -> Forall2 same_entry (filter f l) (filter f k).
Proof. intros f l k R F. induction F as [|a b l k E F IH]; cbn; [constructor|]. rewrite (R a b E). destruct (f b); auto. Qed.
Lemma slice_pla : forall v m h acts (f : Q * val * Q -> bool), traced v m h -> m_stats m = false -> m_level m = false -> no_entry acts ->
  (forall p, In p (seen h) -> f p = status false acts (time p)) ->
  exists m', (let '(e, w) := slice_plain (merge2 acts (map (fun p => (fst (fst p), Ac (snd (fst p)) (snd p))) (entries_w m))) false [] WNo in finish v (set_w w (set_e e (fresh false (m_type m) v)))) = Mok m' /\
  holds_entries v m' (filter f (rev (seen h))).
Proof.
  intros v m h acts f T S L N F. pose proof (mi_pla _ _ _ (traced_inv _ _ _ T) S L) as P. pose proof (entries_seen m h P) as ES. pose proof (entries_sorted v m h T S L) as SO.
  destruct (slice_plain_spec acts (entries_w m) false [] WNo N SO (Forall_nil _)) as [A B]. change (map (fun p => (fst (fst p), Ac (snd (fst p)) (snd p))) (entries_w m)) with (map entry (entries_w m)). cbn [map] in A, B.
  destruct (slice_plain (merge2 acts (map entry (entries_w m))) false [] WNo) as [e w]. cbn [fst snd] in A, B. rewrite app_nil_r in A, B.
  set (g := fun p : Q * val * Q => status false acts (time p)) in *. assert (FF : Forall2 same_entry (filter g (entries_w m)) (filter f (rev (seen h)))).
  { assert (X : filter f (rev (seen h)) = filter g (rev (seen h))) by (apply filter_ext_in; intros p I; apply F; apply in_rev; auto). rewrite X. apply F2_filter; auto. intros p q [E _]. unfold g, time. rewrite E. auto. }
  eexists. split; [rewrite finish_plain by reflexivity; reflexivity|]. set (k := filter f (rev (seen h))) in *.
  assert (PL : Pla (set_gen (set_on false (set_w w (set_e e (fresh false (m_type m) v))))) (told (rev k))).
  { split; rewrite ?told_seen; cbn [set_gen set_on set_w set_e m_e m_w m_type].
    - rewrite A. rewrite !map_rev. f_equal. apply same_fst. auto.
    - eapply weights_same; [exact B|]. apply F2_rev_gen. auto.
    - intros t x u I. apply in_rev in I. apply filter_In in I. destruct I as [I _]. apply in_rev in I. apply (pl_vals _ _ P t x u I). }
  split; [reflexivity|]. split. { pose proof (pl_e _ _ PL) as X. rewrite told_seen in X. rewrite X, <- map_rev, rev_involutive. auto. }
  split. { pose proof (pl_w _ _ PL) as X. rewrite told_seen in X. exact X. }
  intro ex0. apply (pla_statistics v _ (told (rev k))); auto. rewrite data_seen, told_seen, rev_involutive. apply Permutation_refl.
Qed.
Lemma leb_start : forall s t, act_leb (s, Aa) (t, Ac (Num 0) 0) = Qle_bool s t.
Proof. intros s t. unfold act_leb. cbn [fst snd letter]. cbn. destruct (Qeq_bool s t) eqn:E; [apply Qeqb_true in E; symmetry; apply Qle_bool_iff; lra|apply Qeqb_false in E]. destruct (Qle_bool s t) eqn:F; [apply Qle_bool_iff in F; apply Qltb_iff; lra|apply Qle_bool_false_iff in F; apply Qltb_false_iff; lra]. Qed.
Lemma leb_stop : forall s t, act_leb (s, Ab) (t, Ac (Num 0) 0) = Qle_bool s t.
Proof. exact leb_start. Qed.
Lemma leb_end : forall s t, act_leb (s, Az) (t, Ac (Num 0) 0) = Qltb s t.
Proof. intros s t. unfold act_leb. cbn [fst snd letter]. cbn. destruct (Qeq_bool s t) eqn:E; auto. apply Qeqb_true in E. symmetry. apply Qltb_false_iff. lra. Qed.
Lemma seen_now : forall v m h p, traced v m h -> In p (seen h) -> time p <= v_now v.
Proof.
  intros v m h p T I. apply seen_in in I. destruct I as [e I]. destruct (traced_times _ _ _ T) as [A B]. rewrite Forall_forall in B. apply (B _ I).
Qed.
Lemma two_acts : forall a b k, (forall x w, k <> Ac x w) -> no_entry [(a, Aa); (b, k)].
Proof. intros a b k N x [<-|[<-|[]]] y w; cbn; [discriminate|auto]. Qed.
(** m[a:b] holds exactly the entries with a <= t < b, in order, with their weights *)
Theorem C44_plain : forall v m h a b, traced v m h -> m_stats m = false -> m_level m = false -> v_off v == 0 -> b <= v_now v ->
  exists m', slice (Some a) (Some b) None v m = Mok m' /\ holds_entries v m' (filter (fun p => Qle_bool a (time p) && Qltb (time p) b) (rev (seen h))).
Proof.
  intros v m h a b T S L O B. unfold slice. rewrite S, L. assert (Q : Qltb (v_now v - v_off v) (b + v_off v) = false) by (apply Qltb_false_iff; lra). rewrite Q.
  apply (slice_pla v m h); auto; [apply two_acts; discriminate|]. intros p I. cbn [status is_start snd]. rewrite leb_start, leb_stop. destruct (Qle_bool a (time p)); auto. cbn [andb].
  destruct (Qltb (time p) b) eqn:E; [apply Qltb_iff in E|apply Qltb_false_iff in E]; destruct (Qle_bool (b + v_off v) (time p)) eqn:E2; auto; [apply Qle_bool_iff in E2|apply Qle_bool_false_iff in E2]; exfalso; lra.
Qed.
(** m[a:] holds all entries from a on, those at the present time included *)
Theorem C44_plain_open : forall v m h a, traced v m h -> m_stats m = false -> m_level m = false -> v_off v == 0 ->
  exists m', slice (Some a) None None v m = Mok m' /\ holds_entries v m' (filter (fun p => Qle_bool a (time p)) (rev (seen h))).
Proof.
  intros v m h a T S L O. unfold slice. rewrite S, L. apply (slice_pla v m h); auto; [apply two_acts; discriminate|]. intros p I. cbn [status is_start snd]. rewrite leb_start, leb_end. destruct (Qle_bool a (time p)); auto.
  pose proof (seen_now v m h p T I). assert (E : Qltb (v_now v - v_off v) (time p) = false) by (apply Qltb_false_iff; lra). rewrite E. auto.
Qed.

(** *** modulo *)
Lemma qmod_range : forall a m, 0 < m -> 0 <= qmod a m /\ qmod a m < m.
Proof.
  intros a m P. unfold qmod. pose proof (Qfloor_le (a / m)) as A. pose proof (Qlt_floor (a / m)) as B. rewrite inject_Z_plus in B. change (inject_Z 1) with 1 in B. set (z := inject_Z (Qfloor (a / m))) in *.
  assert (E : a == a / m * m) by (field; lra). set (d := a / m) in *. split; [|apply (Qplus_lt_l _ _ (z * m))]; ring_simplify.
  - assert (z * m <= d * m) by (apply Qmult_le_compat_r; lra). lra.
  - assert (d * m < (z + 1) * m) by (apply Qmult_lt_compat_r; lra). lra.
Qed.
Lemma qmod_unique : forall a m r k, 0 < m -> 0 <= r < m -> a == r + inject_Z k * m -> qmod a m == r.
Proof.
  intros a m r k P [R1 R2] E. unfold qmod. assert (F : Qfloor (a / m) = k).
  { apply Z.le_antisymm.
    - apply Z.lt_succ_r. rewrite Zlt_Qlt. eapply Qle_lt_trans; [apply Qfloor_le|]. unfold Z.succ. rewrite inject_Z_plus. change (inject_Z 1) with 1. apply Qlt_shift_div_r; auto. lra.
    - rewrite <- (Qfloor_Z k). apply Qfloor_resp_le. apply Qle_shift_div_l; auto. lra. }
  rewrite F, E. ring.
Qed.
Fixpoint windows (n : nat) (s len mo : Q) : list (Q * act) := match n with O => [] | S k => (s, Aa) :: (s + len, Ab) :: windows k (s + mo) len mo end.
Definition nQ (n : nat) : Q := inject_Z (Z.of_nat n).
Lemma nQ_S : forall n, nQ (S n) == nQ n + 1.
Proof. intro n. unfold nQ. rewrite Nat2Z.inj_succ. unfold Z.succ. rewrite inject_Z_plus. reflexivity. Qed.
Lemma nQ_0 : nQ 0 == 0. Proof. reflexivity. Qed.
Lemma nQ_pos : forall n, 0 <= nQ n. Proof. intro n. unfold nQ. change 0 with (inject_Z 0). rewrite <- Zle_Qle. lia. Qed.
Lemma mod_windows : forall len mo now, 0 < mo -> forall f s, now <= s + nQ f * mo -> exists n, mod_actions (S f) s len mo now = Mok (windows n s len mo) /\ now <= s + nQ n * mo.
Proof.
  intros len mo now P. induction f as [|f IH]; intros s B.
  - exists 0%nat. cbn [mod_actions windows]. rewrite nQ_0 in *. assert (E : Qltb s now = false) by (apply Qltb_false_iff; lra). rewrite E. split; auto.
  - assert (U : mod_actions (S (S f)) s len mo now = if Qltb s now then match mod_actions (S f) (s + mo) len mo now with Mok l => Mok ((s, Aa) :: (s + len, Ab) :: l) | e => e end else Mok []) by reflexivity. rewrite U. clear U. destruct (Qltb s now) eqn:E.
    + rewrite nQ_S in B. destruct (IH (s + mo)) as (n & -> & N); [lra|]. exists (S n). split; auto. rewrite nQ_S. lra.
    + apply Qltb_false_iff in E. exists 0%nat. split; auto. rewrite nQ_0. lra.
Qed.
Lemma windows_no_entry : forall n s len mo, no_entry (windows n s len mo).
Proof. induction n as [|n IH]; intros s len mo x I y w; [destruct I|]. cbn [windows] in I. destruct I as [<-|[<-|I]]; [discriminate|discriminate|eapply IH; eauto]. Qed.
Lemma windows_status : forall len mo t, 0 < len -> len < mo -> forall n s, status false (windows n s len mo) t = true <-> exists k, (k < n)%nat /\ s + nQ k * mo <= t /\ t < s + nQ k * mo + len.
Proof.
  intros len mo t P Q. induction n as [|n IH]; intro s; cbn [windows status is_start snd]; [split; [discriminate|intros (k & K & _); lia]|]. rewrite leb_start, leb_stop.
  destruct (Qle_bool s t) eqn:E1; [apply Qle_bool_iff in E1|apply Qle_bool_false_iff in E1].
  - destruct (Qle_bool (s + len) t) eqn:E2; [apply Qle_bool_iff in E2|apply Qle_bool_false_iff in E2].
    + rewrite IH. split; intros (k & K & A & B).
      * exists (S k). rewrite nQ_S. split; [lia|]. split; lra.
      * destruct k as [|k]; [rewrite nQ_0 in *; exfalso; lra|]. exists k. rewrite nQ_S in *. split; [lia|]. split; lra.
    + split; auto. intros _. exists 0%nat. rewrite nQ_0. split; [lia|]. split; lra.
  - split; [discriminate|]. intros (k & K & A & B). exfalso. assert (0 <= nQ k * mo) by (apply Qmult_le_0_compat; [apply nQ_pos|lra]). lra.
Qed.
Lemma nQ_enough : forall x mo, 0 < mo -> x <= nQ (Z.to_nat (Qceiling (x / mo))) * mo.
Proof.
  intros x mo P. assert (C : x / mo <= inject_Z (Qceiling (x / mo))) by apply Qle_ceiling. assert (N : inject_Z (Qceiling (x / mo)) <= nQ (Z.to_nat (Qceiling (x / mo)))) by (unfold nQ; rewrite <- Zle_Qle; lia).
  assert (E : x == x / mo * mo) by (field; lra). rewrite E at 1. apply Qmult_le_compat_r; lra.
Qed.
Lemma qmod_eq : forall a m, exists k, a == qmod a m + inject_Z k * m.
Proof. intros a m. exists (Qfloor (a / m)). unfold qmod. ring. Qed.
Lemma int_mono : forall (i j : Z) mo, 0 < mo -> (i <= j)%Z -> inject_Z i * mo <= inject_Z j * mo.
Proof. intros i j mo P L. apply Qmult_le_compat_r; [rewrite <- Zle_Qle; auto|lra]. Qed.
(** m.slice(a, b, modulo) holds exactly the entries with a + k modulo <= t < b + k modulo for some integer k, provided that the window does not contain
    a multiple of modulo (b may be one) and none starts at the present time. [f] is any decision of that. *)
Theorem C44_plain_modulo : forall v m h a b mo f, traced v m h -> m_stats m = false -> m_level m = false -> a < b -> b - a < mo -> seen h <> [] ->
  (exists z : Z, inject_Z z * mo <= a /\ b <= (inject_Z z + 1) * mo) -> (forall k : Z, ~ a + inject_Z k * mo == v_now v) ->
  (forall t, f t = true <-> exists k : Z, a + inject_Z k * mo <= t /\ t < b + inject_Z k * mo) ->
  exists m', slice (Some a) (Some b) (Some mo) v m = Mok m' /\ holds_entries v m' (filter (fun p => f (time p)) (rev (seen h))).
Proof.
  intros v m h a b mo f T S L AB BM NE (z & Z1 & Z2) NOW F. assert (P : 0 < mo) by lra. unfold slice. rewrite S, L.
  assert (Q1 : Qle_bool b a = false) by (apply Qle_bool_false_iff; lra). assert (Q2 : Qle_bool mo (b - a) = false) by (apply Qle_bool_false_iff; lra). rewrite Q1, Q2. clear Q1 Q2.
  pose proof (mi_pla _ _ _ (traced_inv _ _ _ T) S L) as PL. rewrite (pl_e _ _ PL), <- map_rev.
  assert (SO : on_time_order (rev (seen h))) by (apply (sorted_rev _ (fun a b => time b <= time a)); apply seen_sorted; apply (traced_times _ _ _ T)).
  destruct (rev (seen h)) as [|[[t0 x0] w0] rr] eqn:RS; [apply (f_equal (@rev _)) in RS; rewrite rev_involutive in RS; tauto|]. cbn [map fst]. set (s1 := t0 - qmod t0 mo + qmod a mo). set (len := qmod (qmod b mo - qmod a mo) mo).
  assert (LE : len == b - a). { unfold len. destruct (qmod_eq a mo) as [i I], (qmod_eq b mo) as [j J]. apply qmod_unique with (k := (i - j)%Z); auto; [lra|]. unfold Z.sub. rewrite inject_Z_plus, inject_Z_opp. lra. }
  destruct (mod_windows len mo (v_now v) P (Z.to_nat (Qceiling ((v_now v - s1) / mo))) s1) as (n & -> & N). { pose proof (nQ_enough (v_now v - s1) mo P). lra. }
  rewrite <- RS. apply (slice_pla v m h); auto; [apply windows_no_entry|]. intros p I.
  assert (QA : qmod a mo == a - inject_Z z * mo) by (apply qmod_unique with (k := z); [auto|split; lra|ring]).
  destruct (qmod_eq t0 mo) as [z0 T0]. pose proof (qmod_range t0 mo P) as [T1 T2].
  assert (S1 : s1 == a + inject_Z (z0 - z) * mo) by (unfold s1, Z.sub; rewrite inject_Z_plus, inject_Z_opp; rewrite QA; lra).
  assert (TP : t0 <= time p). { apply in_rev in I. rewrite RS in I. destruct I as [<-|I]; [apply Qle_refl|]. inversion SO as [|? ? _ FA]. subst. rewrite Forall_forall in FA. apply (FA p I). }
  pose proof (seen_now v m h p T I) as TN. set (t := time p) in *. clearbody t.
  apply eq_true_iff_eq. rewrite F, windows_status by lra. split.
  - intros (k & K1 & K2). assert (KZ : (z0 - z <= k)%Z).
    { destruct (Z.le_gt_cases (z0 - z) k) as [G|G]; auto. exfalso. pose proof (int_mono (z + k + 1) z0 mo P ltac:(lia)) as M. rewrite !inject_Z_plus in M. change (inject_Z 1) with 1 in M. lra. }
    exists (Z.to_nat (k - (z0 - z))). assert (E : nQ (Z.to_nat (k - (z0 - z))) == inject_Z k - inject_Z (z0 - z)) by (unfold nQ; rewrite Z2Nat.id by lia; unfold Z.sub at 1; rewrite inject_Z_plus, inject_Z_opp; lra).
    split; [|rewrite E; split; lra]. apply Nat.nle_gt. intro G. assert (GE : nQ n <= nQ (Z.to_nat (k - (z0 - z)))) by (unfold nQ; rewrite <- Zle_Qle; lia). apply (Qmult_le_compat_r _ _ mo) in GE; [|lra]. rewrite E in GE. apply (NOW k). lra.
  - intros (k & K & A & B). exists (z0 - z + Z.of_nat k)%Z. rewrite inject_Z_plus. fold (nQ k). split; lra.
Qed.

(** ** level monitors *)
Lemma veqb_sym : forall x y, veqb x y = veqb y x.
Proof. intros [p| |i n] [q| |j k]; cbn; auto. - destruct (Qeq_bool p q) eqn:A, (Qeq_bool q p) eqn:B; auto; [apply Qeqb_true in A; apply Qeqb_false in B|apply Qeqb_false in A; apply Qeqb_true in B]; exfalso; lra. - apply Nat.eqb_sym. Qed.
Lemma veqb_trans : forall x y z, veqb x y = true -> veqb y z = true -> veqb x z = true.
Proof. intros [p| |i n] [q| |j k] [r| |l o]; cbn; intros A B; try discriminate; auto. - apply Qeqb_true in A, B. apply Qeq_bool_iff. lra. - apply Nat.eqb_eq in A, B. apply Nat.eqb_eq. congruence. Qed.
Definition ent (p : Q * val) : Q * act := (fst p, Ac (snd p) 1).
Definition ascending (l : list (Q * val)) : Prop := StronglySorted (fun a b : Q * val => fst a < fst b) l.
(** the last value *)
Definition lst (x : val) (l : list (Q * val)) : val := fold_left (fun _ p => snd p) l x.
Lemma merge2_split : forall x acts l, exists p r, l = p ++ r /\ Forall (fun y => act_leb x y = false) p /\ match r with [] => True | y :: _ => act_leb x y = true end /\ merge2 (x :: acts) l = p ++ x :: merge2 acts r.
Proof.
  intros x acts. induction l as [|y l IH].
  - exists [], []. rewrite !merge2_nil. repeat split; auto.
  - rewrite merge2_cons. destruct (act_leb x y) eqn:E.
    + exists [], (y :: l). repeat split; auto.
    + destruct IH as (p & r & -> & A & B & C). exists (y :: p), r. split; auto. split; [constructor; auto|]. split; auto. rewrite C. auto.
Qed.
Lemma map_split : forall A B (f : A -> B) l p r, map f l = p ++ r -> exists p' r', l = p' ++ r' /\ p = map f p' /\ r = map f r'.
Proof. induction l as [|a l IH]; intros [|b p] r E; cbn in E; try discriminate; [exists [], []; auto|exists [], (a :: l); auto|]. injection E as <- E. destruct (IH p r E) as (p' & r' & -> & -> & ->). exists (a :: p'), r'. auto. Qed.
Lemma slice_off : forall off P R cx e, slice_level off (map ent P ++ R) cx false e = slice_level off R (lst cx P) false e.
Proof. intros off. induction P as [|[t x] P IH]; intros R cx e; cbn [map app slice_level ent fst snd lst fold_left]; auto. rewrite IH. auto. Qed.
Lemma look_snoc : forall off D t x u, look off (rev (D ++ [(t, x)])) u = if Qle_bool t u then x else look off (rev D) u.
Proof. intros. rewrite rev_app_distr. reflexivity. Qed.
Lemma lst_snoc : forall x D p, lst x (D ++ [p]) = snd p. Proof. intros. unfold lst. rewrite fold_left_app. reflexivity. Qed.
Lemma lst_app : forall x A B, lst x (A ++ B) = lst (lst x A) B. Proof. intros. unfold lst. apply fold_left_app. Qed.
Lemma look_last : forall off D u, Forall (fun p => fst p <= u) D -> look off (rev D) u = lst off D.
Proof.
  intros off D u F. destruct D as [|p D _] using rev_ind; auto. destruct p as [t x]. rewrite look_snoc, lst_snoc. apply Forall_app in F. destruct F as [_ F]. inversion F. subst. cbn in *. assert (E : Qle_bool t u = true) by (apply Qle_bool_iff; auto). rewrite E. auto.
Qed.
Record Win (a : Q) (off : val) (e : list (Q * val)) (cx : val) (D : list (Q * val)) (B : Q) : Prop := {
  wi_head : exists s y r, e = (s, y) :: r /\ a <= s /\ s <= B /\ veqb y cx = true; wi_decr : decr B e;
  wi_look : forall u, veqb (look off e u) (if Qle_bool a u then look off (rev D) u else off) = true; wi_cur : cx = lst off D }.
Lemma decr_put : forall t x y s r, decr s r -> match r with [] => True | (s', _) :: _ => s' < s end -> s < t -> decr t ((t, x) :: (s, y) :: r).
Proof. intros t x y s r D H L. cbn. repeat split; auto; lra. Qed.
Lemma win_step : forall a off e cx D B t x, Win a off e cx D B -> a <= t -> (forall p, In p D -> fst p < t) -> B <= t -> Win a off (if veqb cx x then e else join t x e) x (D ++ [(t, x)]) t.
Proof.
  intros a off e cx D B t x [(s & y & r & -> & H1 & H2 & H3) DE LK CU] AT LT BT.
  assert (PAST : forall u, t <= u -> look off (rev D) u = cx). { intros u U. rewrite CU. apply look_last. apply Forall_forall. intros p I. apply LT in I. lra. }
  destruct (veqb cx x) eqn:E.
  - split; [exists s, y, r; repeat split; auto; [lra|eapply veqb_trans; eauto]|eapply decr_le; eauto| |rewrite lst_snoc; auto].
    intro u. rewrite look_snoc. specialize (LK u). destruct (Qle_bool t u) eqn:TU; auto. apply Qle_bool_iff in TU. assert (AU : Qle_bool a u = true) by (apply Qle_bool_iff; lra). rewrite AU in *. rewrite PAST in LK by auto. eapply veqb_trans; eauto.
  - assert (NY : veqb y x = false). { apply not_true_is_false. intro Y. rewrite veqb_sym in H3. pose proof (veqb_trans _ _ _ H3 Y). congruence. }
    assert (J : join t x ((s, y) :: r) = put_last t x ((s, y) :: r)) by (cbn [join put_last]; rewrite NY; auto). rewrite J.
    assert (DT : decr t ((s, y) :: r)) by (eapply decr_le; eauto).
    split.
    + cbn [put_last]. destruct (Qeq_bool s t) eqn:ST; [apply Qeqb_true in ST; exists s, x, r|apply Qeqb_false in ST; exists t, x, ((s, y) :: r)]; rewrite veqb_refl; repeat split; auto; lra.
    + apply put_decr. auto.
    + intro u. rewrite put_look, look_snoc by auto. destruct (Qle_bool t u) eqn:TU; [apply Qle_bool_iff in TU; assert (AU : Qle_bool a u = true) by (apply Qle_bool_iff; lra); rewrite AU; apply veqb_refl|apply LK].
    + rewrite lst_snoc. auto.
Qed.
Lemma win_run : forall a off R P e cx D B B', Win a off e cx D B -> ascending (D ++ P) -> (forall p, In p P -> a <= fst p /\ B <= fst p /\ fst p <= B') -> B <= B' ->
  exists e', slice_level off (map ent P ++ R) cx true e = slice_level off R (lst cx P) true e' /\ Win a off e' (lst cx P) (D ++ P) B'.
Proof.
  intros a off R. induction P as [|[t x] P IH]; intros e cx D B B' W S F BB.
  - exists e. split; auto. rewrite app_nil_r. destruct W as [(s & y & r & -> & H1 & H2 & H3) DE LK CU]. split; auto; [exists s, y, r; repeat split; auto; lra|eapply decr_le; eauto].
  - cbn [map app slice_level ent fst snd]. destruct (F (t, x) (or_introl eq_refl)) as (F1 & F2 & F3). cbn in F1, F2, F3.
    assert (LT : forall p, In p D -> fst p < t). { clear - S. intros p I. induction D as [|q D IH]; [destruct I|]. inversion S as [|? ? S1 FA]. subst. destruct I as [<-|I]; [|apply IH; auto]. rewrite Forall_forall in FA. apply (FA (t, x)). apply in_or_app. right. left. auto. }
    pose proof (win_step a off e cx D B t x W F1 LT F2) as W'. replace (D ++ (t, x) :: P) with ((D ++ [(t, x)]) ++ P) in * by (rewrite <- app_assoc; reflexivity).
    destruct (IH _ x (D ++ [(t, x)]) t B' W' S) as (e' & E & V); [|auto|exists e'; split; auto].
    intros p I. destruct (F p (or_intror I)) as (G1 & G2 & G3). split; auto. split; auto.
    assert (SS : In (t, x) (D ++ [(t, x)])) by (apply in_or_app; right; left; auto). clear - S SS I. set (A := D ++ [(t, x)]) in *. clearbody A. induction A as [|q A IH]; [destruct SS|]. cbn [app] in S. inversion S as [|? ? S1 FA]. subst. destruct SS as [->|SS]; [|apply IH; auto]. rewrite Forall_forall in FA. apply Qlt_le_weak. apply (FA p). apply in_or_app. auto.
Qed.
(** the start of the window *)
Lemma win_start : forall a off P s0, (forall p, In p P -> fst p < a) -> (forall p, In p P -> s0 <= fst p) -> ascending P -> Win a off (join a (lst off P) [(s0, off)]) (lst off P) P a.
Proof.
  intros a off P s0 F G S. assert (LK : forall u, a <= u -> look off (rev P) u = lst off P) by (intros u U; apply look_last; apply Forall_forall; intros p I; apply F in I; lra).
  assert (NO : a <= s0 -> P = []) by (intro L; destruct P as [|p P]; auto; pose proof (F p (or_introl eq_refl)); pose proof (G p (or_introl eq_refl)); lra).
  cbn [join]. destruct (Qeq_bool s0 a) eqn:E; [apply Qeqb_true in E|apply Qeqb_false in E].
  - rewrite (NO ltac:(lra)). cbn. split; auto.
    + exists s0, off, []. rewrite veqb_refl. repeat split; auto; lra.
    + cbn. split; auto. lra.
    + intro u. cbn. destruct (Qle_bool s0 u), (Qle_bool a u); apply veqb_refl.
  - destruct (veqb off (lst off P)) eqn:Y.
    + split; auto.
      * exists a, off, []. repeat split; auto; lra.
      * cbn. split; auto. lra.
      * intro u. cbn [look]. destruct (Qle_bool a u) eqn:AU; [|apply veqb_refl]. apply Qle_bool_iff in AU. rewrite LK; auto.
    + assert (S0 : s0 < a). { destruct (Qlt_le_dec s0 a); auto. exfalso. rewrite (NO q) in Y. cbn in Y. rewrite veqb_refl in Y. discriminate. }
      split; auto.
      * exists a, (lst off P), [(s0, off)]. rewrite veqb_refl. repeat split; auto; lra.
      * cbn. repeat split; auto; lra.
      * intro u. cbn [look]. destruct (Qle_bool a u) eqn:AU; [apply Qle_bool_iff in AU; rewrite LK; auto; apply veqb_refl|]. destruct (Qle_bool s0 u); apply veqb_refl.
Qed.
(** the end of the window, when the last value is not off, or all are *)
Lemma win_stop : forall a off e cx D b, Win a off e cx D b -> a <= b ->
  (exists s, s < b /\ forall u, s <= u -> u < b -> veqb (look off (rev D) u) off = false) \/ (forall u, a <= u -> u < b -> veqb (look off (rev D) u) off = true) ->
  decr b (join b off e) /\ join b off e <> [] /\ forall u, veqb (look off (join b off e) u) (if Qle_bool a u && Qltb u b then look off (rev D) u else off) = true.
Proof.
  intros a off e cx D b [(s & y & r & -> & H1 & H2 & H3) DE LK CU] AB HY.
  assert (NLT : forall u, Qle_bool b u = negb (Qltb u b)) by (intro u; unfold Qltb; rewrite negb_involutive; auto).
  assert (PUT : join b off ((s, y) :: r) = put_last b off ((s, y) :: r) -> decr b (join b off ((s, y) :: r)) /\ join b off ((s, y) :: r) <> [] /\ forall u, veqb (look off (join b off ((s, y) :: r)) u) (if Qle_bool a u && Qltb u b then look off (rev D) u else off) = true).
  { intros ->. split; [apply put_decr; auto|]. split; [destruct (put_head b off ((s, y) :: r)) as (? & ? & ->); discriminate|]. intro u. rewrite put_look by auto. rewrite NLT. destruct (Qltb u b); cbn [negb]; [|rewrite andb_false_r; apply veqb_refl]. rewrite andb_true_r. apply LK. }
  destruct (Qeq_bool s b) eqn:SB; [apply PUT; cbn; rewrite SB; auto|]. destruct (veqb y off) eqn:YO; [|apply PUT; cbn; rewrite SB, YO; auto]. clear PUT. assert (J : join b off ((s, y) :: r) = (b, y) :: r) by (cbn; rewrite SB, YO; auto). rewrite J. clear J. apply Qeqb_false in SB. assert (SB' : s < b) by lra.
  destruct DE as (D1 & D2 & D3).
  destruct HY as [(z & Z1 & Z2)|HY].
  - exfalso. set (u := if Qle_bool z s then s else z). assert (U : z <= u /\ s <= u /\ u < b) by (unfold u; destruct (Qle_bool z s) eqn:ZS; [apply Qle_bool_iff in ZS|apply Qle_bool_false_iff in ZS]; lra).
    destruct U as (U1 & U2 & U3). specialize (Z2 u U1 U3). specialize (LK u). cbn [look] in LK. assert (E1 : Qle_bool s u = true) by (apply Qle_bool_iff; auto). assert (E2 : Qle_bool a u = true) by (apply Qle_bool_iff; lra). rewrite E1, E2, veqb_sym in LK. pose proof (veqb_trans _ _ _ LK YO). congruence.
  - assert (RR : forall u, u < b -> veqb (look off r u) off = true).
    { intros u UB. assert (LE : forall w, w < s -> veqb (look off r w) off = true). { intros w WS. specialize (LK w). cbn [look] in LK. assert (E1 : Qle_bool s w = false) by (apply Qle_bool_false_iff; auto). rewrite E1 in LK. destruct (Qle_bool a w) eqn:AW; auto. apply Qle_bool_iff in AW. eapply veqb_trans; [exact LK|]. apply HY; auto. lra. }
      destruct (Qlt_le_dec u s) as [L|L]; auto. destruct r as [|[s' y'] r']; [apply veqb_refl|]. specialize (LE s' D2). cbn [look] in *. assert (E1 : Qle_bool s' s' = true) by (apply Qle_bool_iff; lra). assert (E2 : Qle_bool s' u = true) by (apply Qle_bool_iff; lra). rewrite E1 in LE. rewrite E2. auto. }
    split; [|split; [discriminate|]].
    + split; [lra|]. split; [destruct r as [|[s' y'] r']; auto; lra|]. apply (decr_le r s b); [auto|lra].
    + intro u. cbn [look]. rewrite NLT. destruct (Qltb u b) eqn:UB; cbn [negb]; [|rewrite andb_false_r; auto]. apply Qltb_iff in UB. rewrite andb_true_r. destruct (Qle_bool a u) eqn:AU; [|apply RR; auto]. apply Qle_bool_iff in AU. rewrite veqb_sym. eapply veqb_trans; [apply HY; auto|]. rewrite veqb_sym. apply RR; auto.
Qed.
Lemma look_app_late : forall off D P u, (forall p, In p P -> u < fst p) -> look off (rev (D ++ P)) u = look off (rev D) u.
Proof.
  intros off D P u. induction P as [|[t x] P IH] using rev_ind; intro F; [rewrite app_nil_r; auto|]. rewrite app_assoc, look_snoc. assert (E : Qle_bool t u = false) by (apply Qle_bool_false_iff; apply (F (t, x)); apply in_or_app; right; left; auto). rewrite E. apply IH. intros p I. apply F. apply in_or_app. auto.
Qed.
Lemma ascending_app : forall A B, ascending (A ++ B) -> ascending A /\ ascending B.
Proof.
  induction A as [|p A IH]; intros B S; [split; [constructor|auto]|]. cbn [app] in S. inversion S as [|? ? S1 F]. subst. destruct (IH B S1) as [I1 I2]. split; auto. constructor; auto. apply Forall_app in F. tauto.
Qed.
Lemma leb_ent : forall x p, act_leb x (ent p) = act_leb x (fst p, Ac (Num 0) 0). Proof. reflexivity. Qed.
Lemma ascending_all : forall x r, (forall y w, snd x <> Ac y w) -> ascending r -> match map ent r with [] => True | y :: _ => act_leb x y = true end -> forall p, In p r -> act_leb x (fst p, Ac (Num 0) 0) = true.
Proof.
  intros x [|q r] N S H p I; [destruct I|]. cbn [map] in H. rewrite leb_ent in H. inversion S as [|? ? S1 F]. subst. destruct I as [<-|I]; auto. rewrite Forall_forall in F. apply F in I. apply (act_leb_mono x (fst q)); auto. lra.
Qed.
Lemma slice_level_main : forall off L s0 a b k, ascending L -> (forall p, In p L -> s0 <= fst p) -> a <= b -> k = Ab \/ k = Az ->
  (exists s, s < b /\ forall u, s <= u -> u < b -> veqb (look off (rev L) u) off = false) \/ (forall u, a <= u -> u < b -> veqb (look off (rev L) u) off = true) ->
  let e := slice_level off (merge2 [(a, Aa); (b, k)] (map ent L)) off false [(s0, off)] in
  decr b e /\ e <> [] /\ forall u, veqb (look off e u) (if Qle_bool a u && Qltb u b then look off (rev L) u else off) = true.
Proof.
  intros off L s0 a b k S G AB K HY e.
  destruct (merge2_split (a, Aa) [(b, k)] (map ent L)) as (p1 & r1 & E1 & A1 & B1 & C1). destruct (map_split _ _ _ _ _ _ E1) as (P1 & R1 & -> & -> & ->). clear E1.
  destruct (merge2_split (b, k) [] (map ent R1)) as (p2 & r2 & E2 & A2 & B2 & C2). destruct (map_split _ _ _ _ _ _ E2) as (P2 & P3 & -> & -> & ->). clear E2.
  destruct (ascending_app _ _ S) as [SP1 SR1]. destruct (ascending_app _ _ SR1) as [SP2 SP3].
  assert (T1 : forall p, In p P1 -> fst p < a). { intros p I. rewrite Forall_forall in A1. specialize (A1 (ent p) (in_map _ _ _ I)). rewrite leb_ent, leb_start in A1. apply Qle_bool_false_iff in A1. auto. }
  assert (T2 : forall p, In p P2 -> a <= fst p /\ fst p <= b).
  { intros p I. split.
    - pose proof (ascending_all (a, Aa) (P2 ++ P3) ltac:(discriminate) SR1 B1 p ltac:(apply in_or_app; auto)) as X. rewrite leb_start in X. apply Qle_bool_iff in X. auto.
    - rewrite Forall_forall in A2. specialize (A2 (ent p) (in_map _ _ _ I)). rewrite leb_ent in A2. destruct K; subst k; [rewrite leb_stop in A2; apply Qle_bool_false_iff in A2; lra|rewrite leb_end in A2; apply Qltb_false_iff in A2; auto]. }
  assert (T3 : forall p, In p P3 -> b <= fst p).
  { intros p I. pose proof (ascending_all (b, k) P3 ltac:(destruct K; subst k; discriminate) SP3 B2 p I) as X. destruct K; subst k; [rewrite leb_stop in X; apply Qle_bool_iff in X; auto|rewrite leb_end in X; apply Qltb_iff in X; lra]. }
  unfold e. rewrite C1, C2, slice_off. cbn [merge2]. cbn [slice_level].
  assert (W1 : Win a off (join a (lst off P1) [(s0, off)]) (lst off P1) P1 a) by (apply win_start; auto; intros p I; apply G; apply in_or_app; auto).
  destruct (win_run a off ((b, k) :: map ent P3) P2 _ _ P1 a b W1) as (e2 & E2 & W2); auto.
  { rewrite app_assoc in S. apply (ascending_app _ _ S). } { intros p I. destruct (T2 p I). repeat split; auto. }
  rewrite E2. assert (LL : forall u, u < b -> look off (rev (P1 ++ P2 ++ P3)) u = look off (rev (P1 ++ P2)) u) by (intros u U; rewrite app_assoc; apply look_app_late; intros p I; apply T3 in I; lra).
  assert (X : slice_level off ((b, k) :: map ent P3) (lst (lst off P1) P2) true e2 = join b off e2).
  { assert (Y : forall cx e, slice_level off (map ent P3) cx false e = e) by (intros cx e0; rewrite <- (app_nil_r (map ent P3)), slice_off; reflexivity). destruct K; subst k; cbn [slice_level]; apply Y. }
  rewrite X. destruct (win_stop a off e2 _ _ b W2 AB) as (R1 & R2 & R3).
  { destruct HY as [(s & Z1 & Z2)|HY]; [left; exists s; split; auto; intros u U1 U2; rewrite <- LL by auto; auto|right; intros u U1 U2; rewrite <- LL by auto; auto]. }
  split; auto. split; auto. intro u. specialize (R3 u). destruct (Qle_bool a u && Qltb u b) eqn:E; auto. apply andb_true_iff in E. destruct E as [_ E]. apply Qltb_iff in E. rewrite LL; auto.
Qed.
Lemma look_eq : forall off l t u, t == u -> look off l t = look off l u.
Proof. intros off l t u E. induction l as [|[s x] r IH]; cbn [look]; auto. rewrite IH. assert (X : Qle_bool s t = Qle_bool s u) by (destruct (Qle_bool s t) eqn:A, (Qle_bool s u) eqn:B; auto; [apply Qle_bool_iff in A; apply Qle_bool_false_iff in B|apply Qle_bool_false_iff in A; apply Qle_bool_iff in B]; exfalso; lra). rewrite X. auto. Qed.
Lemma decr_strict : forall l now, decr now l -> ascending (rev l).
Proof.
  induction l as [|[s x] r IH]; intros now D; cbn [rev]; [constructor|]. destruct D as (A & B & C). specialize (IH s C).
  assert (LT : Forall (fun p => fst p < s) (rev r)). { apply Forall_rev. destruct r as [|[s' x'] r']; [constructor|]. constructor; auto. destruct C as (C1 & C2 & C3). eapply Forall_impl; [|apply (decr_later r' s' C3)]. cbn. intros. lra. }
  clear - IH LT. induction (rev r) as [|p l IHl]; cbn [app]; [constructor; constructor|]. inversion IH as [|? ? S1 F]. inversion LT. subst. constructor; [apply IHl; auto|]. apply Forall_app. split; auto.
Qed.
Lemma decr_first : forall l now p, decr now l -> In p l -> fst (last l (0, Num 0)) <= fst p.
Proof.
  induction l as [|[s x] r IH]; intros now p D I; [destruct I|]. destruct D as (A & B & C). destruct r as [|q r]; [destruct I as [<-|[]]; cbn; lra|]. change (last ((s, x) :: q :: r) (0, Num 0)) with (last (q :: r) (0, Num 0)). destruct I as [<-|I]; [|eapply IH; eauto]. pose proof (IH s q C (or_introl eq_refl)). destruct q as [s' x']. cbn [fst] in *. lra.
Qed.
Lemma slice_acts : forall v m a stop b, m_stats m = false -> m_level m = true -> v_off v == 0 -> (stop = Some b /\ b <= v_now v) \/ (stop = None /\ b = v_now v) ->
  exists b' k, b' == b /\ (k = Ab \/ k = Az) /\ slice (Some a) stop None v m = finish v (set_e (slice_level (m_off m) (merge2 [(a, Aa); (b', k)] (map ent (rev (m_e m)))) (m_off m) false [(m_start m, m_off m)]) (fresh true (m_type m) v)).
Proof.
  intros v m a stop b S L O ST. unfold slice. rewrite S, L. generalize (fresh true (m_type m) v). intro new. rewrite map_map. generalize (rev (m_e m)). intro l. destruct ST as [[-> LE]|[-> ->]].
  - assert (Q : Qltb (v_now v - v_off v) (b + v_off v) = false) by (apply Qltb_false_iff; lra). rewrite Q. exists (b + v_off v), Ab. split; [lra|]. split; [auto|reflexivity].
  - exists (v_now v - v_off v), Az. split; [lra|]. split; [auto|reflexivity].
Qed.
Lemma level_result : forall v new e off, m_stats new = false -> m_gen new = false -> m_level new = true -> off_of (m_type new) = off -> decr (v_now v) e -> e <> [] ->
  exists m', finish v (set_e e new) = Mok m' /\ m_off m' = off /\ forall t, t + v_off v < v_now v -> call (Some t) v m' = Mok (look off (put_last (v_now v) off e) (t + v_off v)).
Proof.
  intros v new e off F1 F2 F3 <- DN NE. rewrite finish_level by (cbn [set_e m_stats m_gen m_level m_e]; auto). eexists. split; [reflexivity|]. split; [reflexivity|]. set (m' := set_gen _).
  assert (ME : m_e m' = put_last (v_now v) (off_of (m_type new)) e) by reflexivity.
  intros t LT. rewrite call_entries; [rewrite ME; reflexivity|unfold m'; cbn; auto|unfold m'; cbn; auto|rewrite ME; apply put_decr; auto|rewrite ME; destruct (put_head (v_now v) (off_of (m_type new)) e) as (? & ? & ->); discriminate|lra].
Qed.
(** the level of the slice m[a:b] (or m[a:], then b is the present time): the level of the monitor from a until b, off elsewhere; provided that the monitor is
    on during some time before b, or off all the time from a until b *)
Theorem C44_level : forall v m h a stop b, traced v m h -> m_stats m = false -> m_level m = true -> v_off v == 0 -> a <= b ->
  (stop = Some b /\ b <= v_now v) \/ (stop = None /\ b = v_now v) ->
  (exists s, s < b /\ forall u, s <= u -> u < b -> level_at h u <> None) \/ (forall u, a <= u -> u < b -> level_at h u = None) ->
  exists m', slice (Some a) stop None v m = Mok m' /\ m_off m' = m_off m /\ forall t, t < v_now v -> exists y, call (Some t) v m' = Mok y /\
    veqb y (if Qle_bool a t && Qltb t b then match level_at h t with Some x => x | None => m_off m end else m_off m) = true.
Proof.
  intros v m h a stop b T S L O AB ST HY. pose proof (mi_lev _ _ _ (traced_inv _ _ _ T) S L) as V. pose proof (lv_decr _ _ _ V) as D.
  destruct (slice_acts v m a stop b S L O ST) as (b' & k & EB & K & ->).
  assert (BN : b' <= v_now v) by (destruct ST as [[_ LE]|[_ ->]]; lra).
  assert (OFFL : forall u, veqb (look (m_off m) (m_e m) u) (m_off m) = match level_at h u with Some _ => false | None => true end).
  { intro u. rewrite (lv_look _ _ _ V u). destruct (level_at h u) as [x|] eqn:E; [|apply veqb_refl]. destruct (level_ok v m h u x T L E) as [_ X]. rewrite L in X. auto. }
  destruct (slice_level_main (m_off m) (rev (m_e m)) (m_start m) a b' k) as (R1 & R2 & R3); auto.
  { eapply decr_strict; eauto. } { intros p I. apply in_rev in I. rewrite <- (lv_start _ _ _ V). eapply decr_first; eauto. } { lra. }
  { rewrite rev_involutive. destruct HY as [(s & S1 & S2)|HY]; [left; exists s; split; [lra|]; intros u U1 U2|right; intros u U1 U2]; rewrite OFFL.
    - assert (X : level_at h u <> None) by (apply S2; lra). destruct (level_at h u); auto; tauto.
    - rewrite HY by lra. auto. }
  rewrite rev_involutive in R3. set (e := slice_level _ _ _ _ _) in *. clearbody e.
  destruct (fresh_level (m_type m) v) as (F1 & F2 & F3 & F4 & F5 & F6). assert (DN : decr (v_now v) e) by (eapply decr_le; eauto).
  assert (OF : off_of (m_type (fresh true (m_type m) v)) = m_off m) by (rewrite F4; auto). clear F4.
  destruct (level_result v (fresh true (m_type m) v) e (m_off m) F1 F2 F3 OF DN R2) as (m' & E & OM & CA). exists m'. split; [exact E|]. split; [exact OM|].
  intros t LT. exists (look (m_off m) (put_last (v_now v) (m_off m) e) (t + v_off v)). split; [apply CA; lra|].
  rewrite put_look by auto. assert (NU : Qle_bool (v_now v) (t + v_off v) = false) by (apply Qle_bool_false_iff; lra). rewrite NU. rewrite (look_eq _ _ (t + v_off v) t) by lra. specialize (R3 t).
  assert (X : Qltb t b' = Qltb t b) by (destruct (Qltb t b') eqn:X1, (Qltb t b) eqn:X2; auto; [apply Qltb_iff in X1; apply Qltb_false_iff in X2|apply Qltb_false_iff in X1; apply Qltb_iff in X2]; exfalso; lra). rewrite X in R3. rewrite (lv_look _ _ _ V t) in R3. auto.
Qed.

(** ** cases *)
(** entries 4 (weight 3) at 0, 1 at 2, 9 at 5, 6 at 6; now 6 *)
Definition story17 := story false TAny false true (Num 0) [OTally (Num 4) 3; OTick 2; OTally (Num 1) 1; OTick 3; OTally (Num 9) 1; OTick 1; OTally (Num 6) 1].
Definition cut (a b mo : option Q) s := match slice a b mo (sv s) (sm s) with Mok m => Some (rev (m_e m), m_w m) | Mer _ => None end.
Example C44_case : traced (sv story17) (sm story17) (sh story17) /\ m_stats (sm story17) = false /\ m_level (sm story17) = false /\ v_off (sv story17) == 0 /\ v_now (sv story17) == 6 /\
  cut (Some 0) (Some 5) None story17 = Some ([(0, Num 4); (2, Num 1)], WList [1; 3]) /\ cut (Some 2) None None story17 = Some ([(2, Num 1); (5, Num 9); (6, Num 6)], WNo).
Proof. split; [apply story_after; vm_compute; reflexivity|]. vm_compute. repeat (split; [reflexivity|]). reflexivity. Qed.
(** windows [20, 24), [44, 48), ... *)
Definition story18 := story false TAny false true (Num 0) [OTick 1; OTally (Num 1) 1; OTick 20; OTally (Num 2) 3; OTick 22; OTally (Num 3) 1; OTick 1; OTally (Num 4) 1; OTick 5].
Example C44_case_modulo : traced (sv story18) (sm story18) (sh story18) /\ m_stats (sm story18) = false /\ m_level (sm story18) = false /\ seen (sh story18) <> [] /\
  (exists z : Z, inject_Z z * 24 <= 20 /\ 24 <= (inject_Z z + 1) * 24) /\ (forall k : Z, ~ 20 + inject_Z k * 24 == v_now (sv story18)) /\ v_now (sv story18) == 49 /\
  cut (Some 20) (Some 24) (Some 24) story18 = Some ([(21, Num 2); (44, Num 4)], WList [1; 3]).
Proof.
  split; [apply story_after; vm_compute; reflexivity|]. split; [vm_compute; reflexivity|]. split; [vm_compute; reflexivity|]. split; [vm_compute; discriminate|]. split; [exists 0%Z; split; vm_compute; discriminate|].
  split; [|split; vm_compute; reflexivity]. intros k. assert (N : v_now (sv story18) == 49) by (vm_compute; reflexivity). rewrite N. clear N. intro E. assert (X : inject_Z (20 + k * 24) == inject_Z 49) by (rewrite inject_Z_plus, inject_Z_mult; exact E). apply (proj1 (inject_Z_injective _ _)) in X. lia.
Qed.
(** the level 3 from 0, 5 from 2, off from 4, 7 from 6; now 8 *)
Example C44_case_level : traced (sv story1) (sm story1) (sh story1) /\ m_stats (sm story1) = false /\ m_level (sm story1) = true /\ v_off (sv story1) == 0 /\ v_now (sv story1) == 8 /\
  (exists s, s < 7 /\ forall u, s <= u -> u < 7 -> level_at (sh story1) u <> None) /\
  match slice (Some 1) (Some 7) None (sv story1) (sm story1) with Mok m => map (fun t => call (Some t) (sv story1) m) [0; 1; 2; 3; 4; 5; 6; 7] =
    [Mok NegInf; Mok (Num 3); Mok (Num 5); Mok (Num 5); Mok NegInf; Mok NegInf; Mok (Num 7); Mok NegInf] | Mer _ => False end.
Proof.
  split; [apply story_after; vm_compute; reflexivity|]. split; [vm_compute; reflexivity|]. split; [vm_compute; reflexivity|]. split; [vm_compute; reflexivity|]. split; [vm_compute; reflexivity|]. split; [|vm_compute; reflexivity].
  exists 6. split; [reflexivity|]. intros u A B. set (hh := sh story1). vm_compute in hh. unfold hh. cbn [level_at]. assert (E : Qle_bool (2 + 2 + 1 + 1) u = true) by (apply Qle_bool_iff; lra). change (Qle_bool 6 u) with (Qle_bool (2 + 2 + 1 + 1) u). rewrite E. cbn. discriminate.
Qed.

(** ** where it is different *)
(** without start: an error *)
Theorem C44_no_start_refuted : exists v m h b, traced v m h /\ m_stats m = false /\ v_off v == 0 /\ slice None (Some b) None v m = Mer MType.
Proof. exists (sv story17), (sm story17), (sh story17), 5. split; [apply story_after; vm_compute; reflexivity|]. split; [vm_compute; reflexivity|]. split; [vm_compute; reflexivity|]. vm_compute. reflexivity. Qed.
(** stop later than now: the entries at the present time are left out *)
Theorem C44_late_stop_refuted : exists v m h m', traced v m h /\ m_level m = false /\ v_off v == 0 /\ v_now v == 6 /\ slice (Some 3) (Some 100) None v m = Mok m' /\ m_e m' = [(5, Num 9)] /\ In (6, Num 6, 1) (seen h).
Proof.
  eexists (sv story17), (sm story17), (sh story17), _. split; [apply story_after; vm_compute; reflexivity|]. split; [vm_compute; reflexivity|]. split; [vm_compute; reflexivity|]. split; [vm_compute; reflexivity|]. split; [vm_compute; reflexivity|]. split; [vm_compute; reflexivity|]. vm_compute. left. reflexivity.
Qed.
(** after reset_now, the start and stop are mixed with the times before: a tally at the time 2 (after reset_now at 10), now 4 *)
Definition story19 := story false TAny false true (Num 0) [OTick 10; OResetNow 10; OTick 2; OTally (Num 1) 1; OTick 2].
Theorem C44_offset_refuted : exists v m h m', traced v m h /\ m_level m = false /\ v_now v - v_off v == 4 /\ slice (Some 1) (Some 3) None v m = Mok m' /\ m_e m' = [] /\ In (2 + v_off v, Num 1, 1) (seen h).
Proof.
  eexists (sv story19), (sm story19), (sh story19), _. split; [apply story_after; vm_compute; reflexivity|]. split; [vm_compute; reflexivity|]. split; [vm_compute; reflexivity|]. split; [vm_compute; reflexivity|]. split; [vm_compute; reflexivity|]. vm_compute. left. reflexivity.
Qed.
(** a monitor that is off at the end of the window: the last value before seems to last until the end; the level at 9/2 is 5, but the monitor was off *)
Theorem C44_off_at_stop_refuted : exists v m h m', traced v m h /\ m_level m = true /\ v_off v == 0 /\ slice (Some 1) (Some 5) None v m = Mok m' /\ call (Some (9 # 2)) v m' = Mok (Num 5) /\ level_at h (9 # 2) = None.
Proof.
  eexists (sv story1), (sm story1), (sh story1), _. split; [apply story_after; vm_compute; reflexivity|]. split; [vm_compute; reflexivity|]. split; [vm_compute; reflexivity|]. split; [vm_compute; reflexivity|]. split; vm_compute; reflexivity.
Qed.
(** a slice of a slice of a level monitor is off everywhere *)
Theorem C44_again_refuted : exists v m h m1 m2, traced v m h /\ m_level m = true /\ v_off v == 0 /\ slice (Some 1) (Some 7) None v m = Mok m1 /\ call (Some 2) v m1 = Mok (Num 5) /\ slice (Some 2) (Some 3) None v m1 = Mok m2 /\ call (Some 2) v m2 = Mok NegInf.
Proof.
  eexists (sv story1), (sm story1), (sh story1), _, _. split; [apply story_after; vm_compute; reflexivity|]. split; [vm_compute; reflexivity|]. split; [vm_compute; reflexivity|]. split; [vm_compute; reflexivity|]. split; [vm_compute; reflexivity|]. split; vm_compute; reflexivity.
Qed.
(** the window contains a multiple of modulo: the windows [-4, 1), [20, 25), [44, 49), ...: the entry at 1/2 is not in the slice *)
Definition story20 := story false TAny false true (Num 0) [OTick (1 # 2); OTally (Num 1) 1; OTick 21; OTally (Num 2) 1; OTick 9].
Theorem C44_modulo_refuted : exists v m h m', traced v m h /\ m_level m = false /\ v_off v == 0 /\ slice (Some 20) (Some 25) (Some 24) v m = Mok m' /\ map snd (m_e m') = [Num 2] /\ In (0 + (1 # 2), Num 1, 1) (seen h) /\ 20 + inject_Z (-1) * 24 <= 1 # 2 /\ 1 # 2 < 25 + inject_Z (-1) * 24.
Proof.
  eexists (sv story20), (sm story20), (sh story20), _. split; [apply story_after; vm_compute; reflexivity|]. split; [vm_compute; reflexivity|]. split; [vm_compute; reflexivity|]. split; [vm_compute; reflexivity|]. split; [vm_compute; reflexivity|]. split; [vm_compute; auto|]. split; vm_compute; [discriminate|reflexivity].
Qed.

Print Assumptions C44_plain.
Print Assumptions C44_plain_open.
Print Assumptions C44_plain_modulo.
Print Assumptions C44_level.
Print Assumptions C44_no_start_refuted.
Print Assumptions C44_late_stop_refuted.
Print Assumptions C44_offset_refuted.
Print Assumptions C44_off_at_stop_refuted.
Print Assumptions C44_again_refuted.
Print Assumptions C44_modulo_refuted.
