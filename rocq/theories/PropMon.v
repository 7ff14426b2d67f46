(** Monitors: C37–C41, C61, C62 *)
From Coq Require Import QArith Qround Lqa List Bool Arith ZArith Lia.
From Verif Require Import Base Util PropUtil Mon MonSpec MonP MonQ MonR.
Import ListNotations.
Open Scope Q_scope.

(** ** C37: m(t) *)
Lemma decr_all : forall l now s x, decr now l -> In (s, x) l -> s <= now.
Proof. induction l as [|[t y] r IH]; intros now s x D I; [destruct I|]. destruct D as (A & B & C). destruct I as [E|I]; [injection E as <- <-; auto|]. pose proof (IH t s x C I). lra. Qed.
Lemma decr_sorted : forall l now, decr now l -> sorted (map fst (rev l)).
Proof.
  induction l as [|[t y] r IH]; intros now D i j I J; [cbn in J; lia|]. destruct D as (A & B & C). cbn [rev] in *. rewrite map_app in *. cbn [map fst] in *. rewrite app_length in J. cbn [List.length] in J.
  assert (LE : forall k, (k < List.length (map fst (rev r)))%nat -> nth k (map fst (rev r)) 0 <= t).
  { intros k K. pose proof (nth_In _ 0 K) as N. apply in_map_iff in N. destruct N as ([s x] & E & N). rewrite <- E. cbn [fst]. apply in_rev in N. eapply decr_all; eauto. }
  destruct (Nat.eq_dec j (List.length (map fst (rev r)))) as [->|NJ].
  - assert (NT : nth (List.length (map fst (rev r))) (map fst (rev r) ++ [t]) 0 = t) by (rewrite app_nth2, Nat.sub_diag by lia; auto). rewrite NT. destruct (Nat.eq_dec i (List.length (map fst (rev r)))) as [->|NI]; [rewrite NT; apply Qle_refl|]. rewrite app_nth1 by lia. apply LE. lia.
  - rewrite !app_nth1 by lia. apply (IH t C); lia.
Qed.
Lemma look_nth : forall off l now t n, decr now l -> (n <= List.length l)%nat -> (forall i, (i < n)%nat -> nth i (map fst (rev l)) 0 <= t) -> (forall i, (n <= i)%nat -> (i < List.length l)%nat -> t < nth i (map fst (rev l)) 0) ->
  match n with O => look off l t = off | S i => exists s, nth_error (rev l) i = Some (s, look off l t) end.
Proof.
  intros off. induction l as [|[s x] r IH]; intros now t n D N A B; [destruct n; [auto|cbn in N; lia]|]. destruct D as (D1 & D2 & D3). cbn [look].
  assert (LEN : List.length (map fst (rev r)) = List.length r) by (rewrite map_length, rev_length; auto).
  assert (LAST : nth (List.length r) (map fst (rev ((s, x) :: r))) 0 = s) by (cbn [rev]; rewrite map_app; cbn [map fst]; rewrite app_nth2, LEN, Nat.sub_diag by lia; auto).
  destruct (Qle_bool s t) eqn:Q.
  - apply Qle_bool_iff in Q. assert (n = S (List.length r)). { destruct (Nat.eq_dec n (S (List.length r))); auto. cbn [List.length] in N. pose proof (B (List.length r) ltac:(lia) ltac:(cbn; lia)) as X. rewrite LAST in X. lra. } subst n.
    exists s. cbn [rev]. rewrite nth_error_app2 by (rewrite rev_length; lia). rewrite rev_length, Nat.sub_diag. auto.
  - apply Qle_bool_false_iff in Q. assert (NR : (n <= List.length r)%nat). { destruct (Nat.eq_dec n (S (List.length r))); [subst|cbn [List.length] in N; lia]. pose proof (A (List.length r) ltac:(lia)) as X. rewrite LAST in X. lra. }
    assert (X := IH s t n D3 NR). destruct n as [|i].
    + apply X; [intros; lia|]. intros i I1 I2. pose proof (B i I1 ltac:(cbn; lia)) as Y. cbn [rev] in Y. rewrite map_app, app_nth1 in Y by lia. auto.
    + cbn [rev]. rewrite nth_error_app1 by (rewrite rev_length; lia). apply X.
      * intros k K. pose proof (A k K) as Y. cbn [rev] in Y. rewrite map_app, app_nth1 in Y by lia. auto.
      * intros k K1 K2. pose proof (B k K1 ltac:(cbn; lia)) as Y. cbn [rev] in Y. rewrite map_app, app_nth1 in Y by lia. auto.
Qed.
Lemma call_look : forall v m h t, Minv v m h -> m_stats m = false -> m_level m = true -> ~ t + v_off v == v_now v -> call (Some t) v m = Mok (look (m_off m) (m_e m) (t + v_off v)).
Proof.
  intros v m h t I S L NE. pose proof (mi_lev _ _ _ I S L) as LEV. unfold call. rewrite L, S. cbn [negb]. destruct (Qeq_bool (t + v_off v) (v_now v)) eqn:Q; [apply Qeqb_true in Q; tauto|]. clear Q NE. set (u := t + v_off v). clearbody u.
  pose proof (lv_decr _ _ _ LEV) as D. destruct (C54_searchsorted (map fst (rev (m_e m))) u (decr_sorted _ _ D)) as [_ (n & E & LN & A & B)]. cbn [searchsorted] in E. unfold bisect_right in E.
  assert (LL : List.length (map fst (rev (m_e m))) = List.length (m_e m)) by (rewrite map_length, rev_length; auto). rewrite LL in *. rewrite E.
  pose proof (look_nth (m_off m) _ _ u n D LN A B) as X. destruct (lv_head _ _ _ LEV) as (s0 & r0 & HD). destruct (rev (m_e m)) as [|[t0 x0] rr] eqn:R; [apply (f_equal (@List.length _)) in R; rewrite rev_length, HD in R; cbn in R; lia|].
  destruct (Qltb u t0) eqn:U.
  - apply Qltb_iff in U. destruct n as [|i]; [rewrite X; auto|]. pose proof (A 0%nat ltac:(lia)) as Y. cbn in Y. lra.
  - apply Qltb_false_iff in U. destruct n as [|i].
    + pose proof (B 0%nat ltac:(lia)) as Y. cbn in Y. rewrite HD in Y. cbn in Y. specialize (Y ltac:(lia)). lra.
    + destruct X as (s & ->). auto.
Qed.
(** in the past: the value in force then, or the off value when the monitor was off then or did not exist yet *)
Theorem C37_past : forall v m h t, traced v m h -> m_stats m = false -> m_level m = true -> ~ t + v_off v == v_now v ->
  call (Some t) v m = Mok (match level_at h (t + v_off v) with Some x => x | None => m_off m end).
Proof. intros v m h t T S L NE. pose proof (traced_inv _ _ _ T) as I. rewrite (call_look v m h) by auto. rewrite (lv_look _ _ _ (mi_lev _ _ _ I S L)). auto. Qed.
(** now: the last value *)
Theorem C37_now : forall v m h, traced v m h -> m_level m = true -> call None v m = Mok (value_of h) /\ forall t, t + v_off v == v_now v -> call (Some t) v m = Mok (value_of h).
Proof.
  intros v m h T L. pose proof (traced_inv _ _ _ T) as I. unfold call. rewrite L. cbn [negb]. rewrite (mi_val _ _ _ I L). split; auto. intros t E. apply Qeqb_true in E. rewrite E. auto.
Qed.
(** a monitor that is on: every time since the start *)
Theorem C37_on : forall v m h t, traced v m h -> m_stats m = false -> m_level m = true -> on_of h = true ->
  call (Some t) v m = Mok (match level_at h (t + v_off v) with Some x => x | None => m_off m end).
Proof.
  intros v m h t T S L ON. destruct (Qeq_dec (t + v_off v) (v_now v)) as [E|E]; [|eapply C37_past; eauto].
  destruct (C37_now v m h T L) as [_ N]. rewrite (N t E). destruct (mi_time _ _ _ (traced_inv _ _ _ T)) as (s & e & r & -> & LE). cbn [level_at]. assert (Q : Qle_bool s (t + v_off v) = true) by (apply Qle_bool_iff; lra). rewrite Q, ON. auto.
Qed.
(** the level that level_at speaks of: what was last done at or before t *)
Theorem C37_level_at : forall a s e b t, s <= t -> (forall s' e', In (s', e') a -> t < s') -> (forall s' e', In (s', e') a -> starts e' = false) ->
  level_at (a ++ (s, e) :: b) t = if on_of ((s, e) :: b) then Some (value_of ((s, e) :: b)) else None.
Proof.
  induction a as [|[s' e'] a IH]; intros s e b t S A B.
  - cbn [app level_at]. assert (Q : Qle_bool s t = true) by (apply Qle_bool_iff; auto). rewrite Q. auto.
  - cbn [app level_at]. assert (Q : Qle_bool s' t = false) by (apply Qle_bool_false_iff; apply (A s' e'); left; auto). rewrite Q, (B s' e') by (left; auto). apply IH; auto; intros x y I; [apply (A x y)|apply (B x y)]; right; auto.
Qed.
(** concrete executions *)
Definition value_okb (m : mon) (x : val) : bool := fits (m_type m) x && (if m_level m then negb (veqb x (m_off m)) else match x with NegInf => false | _ => true end).
Definition op_okb (o : mop) (m : mon) : bool := match o with OTally x w => value_okb m x && (negb (m_stats m) || Qle_bool 0 w) | OTick dt => Qle_bool 0 dt | _ => true end.
Lemma value_okb_ok : forall m x, value_okb m x = true -> value_ok m x.
Proof. intros m x E. apply andb_true_iff in E. destruct E as [A B]. split; auto. destruct (m_level m); [apply negb_true_iff; auto|destruct x; congruence]. Qed.
Lemma op_okb_ok : forall o m, op_okb o m = true -> op_ok o m.
Proof.
  intros [x w| | |dt| | |] m E; cbn in *; auto; [|apply Qle_bool_iff; auto]. apply andb_true_iff in E. destruct E as [A B]. split; [apply value_okb_ok; auto|]. intro S. rewrite S in B. cbn in B. apply Qle_bool_iff. auto.
Qed.
Fixpoint mrun (ops : list mop) (s : menv * mon * hist) : option (menv * mon * hist) :=
  match ops with
  | [] => Some s
  | o :: r => let '(v, m, h) := s in
      if op_okb o m then match mexec o (v, m) with ((v', m'), Mok _) => mrun r (v', m', note_op o (v_now v) h) | ((v', m'), Mer _) => mrun r (v', m', h) end else None
  end.
Definition mstart (level : bool) (ty : mtype) (stats on : bool) (init : val) (v : menv) : option (menv * mon * hist) :=
  if value_okb (mkMon level ty stats false on init 0 0 [] WNo 0 acc0 acc0 []) init then match create level ty stats on init v with (m, Mok _) => Some (v, m, [(v_now v, HMade (if level then init else Num 0) on)]) | _ => None end else None.
Definition story (level : bool) (ty : mtype) (stats on : bool) (init : val) (ops : list mop) : option (menv * mon * hist) :=
  match mstart level ty stats on init (mkMenv 0 0) with Some s => mrun ops s | None => None end.
Lemma mrun_traced : forall ops v m h v' m' h', traced v m h -> mrun ops (v, m, h) = Some (v', m', h') -> traced v' m' h'.
Proof.
  induction ops as [|o r IH]; intros v m h v' m' h' T E; cbn [mrun] in E; [injection E as <- <- <-; auto|]. destruct (op_okb o m) eqn:OK; [|discriminate]. apply op_okb_ok in OK.
  destruct (mexec o (v, m)) as [[v1 m1] [[]|e]] eqn:X; (eapply IH; [|exact E]); [eapply tr_ok; eauto|eapply tr_err; eauto].
Qed.
Lemma story_traced : forall level ty stats on init ops v m h, story level ty stats on init ops = Some (v, m, h) -> traced v m h.
Proof.
  intros level ty stats on init ops v m h E. unfold story, mstart in E. destruct (value_okb _ init) eqn:OK; [|discriminate]. apply value_okb_ok in OK. destruct (create level ty stats on init (mkMenv 0 0)) as [m0 [[]|e]] eqn:C; [|discriminate].
  eapply mrun_traced; [|exact E]. eapply tr_new; eauto.
Qed.
(** the state after a story *)
Definition after (s : option (menv * mon * hist)) : menv * mon * hist := match s with Some x => x | None => (mkMenv 0 0, mkMon true TAny false false true (Num 0) 0 0 [] WNo 0 acc0 acc0 [], []) end.
Definition sv (s : option (menv * mon * hist)) := fst (fst (after s)).
Definition sm (s : option (menv * mon * hist)) := snd (fst (after s)).
Definition sh (s : option (menv * mon * hist)) := snd (after s).
Lemma story_after : forall level ty stats on init ops, (match story level ty stats on init ops with Some _ => true | None => false end) = true ->
  let s := story level ty stats on init ops in traced (sv s) (sm s) (sh s).
Proof. intros level ty stats on init ops E s. unfold s, sv, sm, sh, after. destruct (story level ty stats on init ops) as [[[v m] h]|] eqn:X; [|discriminate]. cbn [fst snd]. eapply story_traced; eauto. Qed.

(** tally 3 at 0 (at the start), 5 at 2, off at 4, 7 at 5, on at 6, now 8 *)
Definition story1 := story true TAny false true (Num 3) [OTick 2; OTally (Num 5) 1; OTick 2; OMonitor false; OTick 1; OTally (Num 7) 1; OTick 1; OMonitor true; OTick 2].
Example C37_case : traced (sv story1) (sm story1) (sh story1) /\ m_stats (sm story1) = false /\ m_level (sm story1) = true /\ on_of (sh story1) = true /\
  map (fun t => call (Some t) (sv story1) (sm story1)) [-1; 0; 1; 2; 3; 4; 5; 6; 7; 8] =
  [Mok NegInf; Mok (Num 3); Mok (Num 3); Mok (Num 5); Mok (Num 5); Mok NegInf; Mok NegInf; Mok (Num 7); Mok (Num 7); Mok (Num 7)].
Proof. split; [apply story_after; vm_compute; reflexivity|]. vm_compute. repeat (split; [reflexivity|]). reflexivity. Qed.
(** while it is off, m(now) is not the off value *)
Definition story2 := story true TAny false true (Num 3) [OTick 2; OMonitor false; OTick 1].
Theorem C37_off_now_refuted : ~ (forall v m h t, traced v m h -> m_stats m = false -> m_level m = true -> on_of h = false -> t + v_off v == v_now v -> call (Some t) v m = Mok (m_off m)).
Proof.
  intro C. assert (T : traced (sv story2) (sm story2) (sh story2)) by (apply story_after; vm_compute; reflexivity). specialize (C _ _ _ 3 T).
  assert (X : call (Some 3) (sv story2) (sm story2) = Mok (Num 3)) by (vm_compute; reflexivity). rewrite X in C. assert (Y : m_off (sm story2) = NegInf) by (vm_compute; reflexivity). rewrite Y in C. assert (Z : Mok (Num 3) = Mok NegInf); [|discriminate]. apply C; vm_compute; reflexivity.
Qed.
(** a tally that raises because the value does not fit the type still becomes the value *)
Definition story3 := story true ty_int8 false true (Num 3) [OTick 2].
Theorem C37_rejected_refuted : exists v m h x m' e, traced v m h /\ m_level m = true /\ tally x 1 v m = (m', Mer e) /\ call None v m' = Mok x /\ call None v m <> Mok x /\ fits (m_type m) x = false.
Proof.
  eexists (sv story3), (sm story3), (sh story3), (Num 200), _, _. split; [apply story_after; vm_compute; reflexivity|]. split; [vm_compute; reflexivity|]. split; [vm_compute; reflexivity|]. split; [vm_compute; reflexivity|]. split; [vm_compute; discriminate|vm_compute; reflexivity].
Qed.

(** ** C38: durations *)
Lemma integral_ext : forall f g h e, (forall x, f x == g x) -> integral f h e == integral g h e.
Proof. intros f g h. induction h as [|[s a] r IH]; intros e E; cbn [integral]; [reflexivity|]. pose proof (IH s E) as X. destruct (on_of _), (starts a); rewrite ?X, ?E; reflexivity. Qed.
Lemma integral_plus : forall f g h e, integral (fun x => f x + g x) h e == integral f h e + integral g h e.
Proof. intros f g h. induction h as [|[s a] r IH]; intro e; cbn [integral]; [ring|]. pose proof (IH s) as X. destruct (on_of _), (starts a); rewrite ?X; ring. Qed.
Lemma area_one : forall h now, area true false (fun _ => 1) h now == on_time h now.
Proof. intros. unfold area, on_time. apply integral_ext. intro. reflexivity. Qed.
(** duration() is the time that the monitor was on since the start *)
Theorem C38_duration : forall v m h, traced v m h -> m_stats m = false -> m_level m = true -> exists m' d, duration false v m = (m', Mok d) /\ d == on_time h (v_now v).
Proof.
  intros v m h T S L. unfold duration, sys_weight. rewrite L, S. destruct (xweight false true v m) as [m' r] eqn:E. exists m', (sumQ (snd r)). split; auto. destruct (stat_xw v m h false m' r T S E) as [EV A]. rewrite (sumQ_total r EV), (A (fun _ => 1)), L. apply area_one.
Qed.
(** with ex0: the time that it was on and the level was not zero *)
Theorem C38_duration_ex0 : forall v m h, traced v m h -> m_stats m = false -> m_level m = true -> exists m' d, duration true v m = (m', Mok d) /\ d == integral (fun x => if Qeq_bool (number x) 0 then 0 else 1) h (v_now v).
Proof.
  intros v m h T S L. unfold duration, sys_weight. rewrite L, S. destruct (xweight true true v m) as [m' r] eqn:E. exists m', (sumQ (snd r)). split; auto. destruct (stat_xw v m h true m' r T S E) as [EV A]. rewrite (sumQ_total r EV), (A (fun _ => 1)), L. unfold area. apply integral_ext. intro. reflexivity.
Qed.
Lemma sumQ_filter_total : forall (f : val -> bool) l, sumQ (map snd (filter (fun p => f (fst p)) l)) == total_of (fun x => if f x then 1 else 0) l.
Proof. intros f l. induction l as [|[x w] r IH]; cbn [filter fst total_of]; [reflexivity|]. destruct (f x); cbn [map snd sumQ]; rewrite IH; ring. Qed.
(** value_duration: the time that the level was one of the values *)
Theorem C38_value_duration : forall vs v m h, traced v m h -> m_stats m = false -> m_level m = true ->
  exists m' d, value_duration vs v m = (m', Mok d) /\ d == integral (fun x => if existsb (veqb x) vs then 1 else 0) h (v_now v).
Proof.
  intros vs v m h T S L. unfold value_duration. rewrite L, S. cbn [negb]. destruct (xweight false false v m) as [m' r] eqn:E. eexists m', _. split; [reflexivity|]. destruct (stat_xv_level v m h m' r T S L E) as [EV A]. unfold value_weight_of. rewrite sumQ_filter_total. rewrite (A (fun x => if is_one vs x then 1 else 0)). apply integral_ext. intro x. reflexivity.
Qed.
(** bin_duration: the time that the level was above lo and at most hi *)
Definition inside (lo hi : bound) (q : Q) : Prop := (match lo with BNegInf => True | BFin l => l < q | BInf => False end) /\ (match hi with BNegInf => False | BFin u => q <= u | BInf => True end).
Lemma in_bin_inside : forall lo hi x, in_bin lo hi x = true <-> inside lo hi (numq x).
Proof.
  intros lo hi x. unfold in_bin, inside. rewrite andb_true_iff. destruct lo, hi; cbn; rewrite ?Qltb_iff, ?Qle_bool_iff; intuition.
Qed.
Theorem C38_bin_duration : forall lo hi v m h (ind : Q -> Q), traced v m h -> m_stats m = false -> m_level m = true -> (forall q, inside lo hi q -> ind q == 1) -> (forall q, ~ inside lo hi q -> ind q == 0) ->
  exists m' d, bin_duration lo hi v m = (m', Mok d) /\ d == integral (fun x => ind (number x)) h (v_now v).
Proof.
  intros lo hi v m h ind T S L I1 I0. unfold bin_duration. rewrite L, S. cbn [negb]. destruct (xweight false true v m) as [m' r] eqn:E. eexists m', _. split; [reflexivity|]. destruct (stat_xw v m h false m' r T S E) as [EV A]. unfold bin_weight_of. rewrite sumQ_filter_total.
  assert (X : total_of (fun x => if in_bin lo hi x then 1 else 0) (combine (fst r) (snd r)) == total_of (fun x => ind (numq x)) (pairs r)).
  { apply total_ext. intro x. pose proof (in_bin_inside lo hi x) as B. destruct (in_bin lo hi x); [rewrite I1 by (apply B; auto); reflexivity|rewrite I0; [reflexivity|rewrite <- B; discriminate]]. }
  rewrite X, (A ind), L. unfold area. apply integral_ext. intro. reflexivity.
Qed.
Lemma integral_zero : forall h e, integral (fun _ => 0) h e == 0.
Proof. induction h as [|[s a] t IH]; intro e; cbn [integral]; [reflexivity|]. pose proof (IH s) as X. destruct (on_of _), (starts a); rewrite ?X; ring. Qed.
(** the durations of groups of values, when every value is in exactly one group, add up to the duration *)
(** the values that the level has had *)
Fixpoint levels (h : hist) : list val := match h with [] => [] | _ :: r => value_of h :: levels r end.
Lemma integral_levels : forall f g h e, (forall x, In x (levels h) -> f x == g x) -> integral f h e == integral g h e.
Proof. intros f g h. induction h as [|[s a] r IH]; intros e E; cbn [integral]; [reflexivity|]. assert (X := IH s (fun x I => E x (or_intror I))). pose proof (E (value_of ((s, a) :: r)) (or_introl eq_refl)) as Y. destruct (on_of _), (starts a); rewrite ?X, ?Y; reflexivity. Qed.
Fixpoint times_in (vss : list (list val)) (x : val) : Q := match vss with [] => 0 | vs :: r => (if existsb (veqb x) vs then 1 else 0) + times_in r x end.
Definition okq {A} (r : mon * mres A) (d : A) : A := match snd r with Mok a => a | _ => d end.
Theorem C38_partition : forall vss v m h, traced v m h -> m_stats m = false -> m_level m = true -> (forall x, In x (levels h) -> times_in vss x == 1) ->
  sumQ (map (fun vs => okq (value_duration vs v m) 0) vss) == okq (duration false v m) 0.
Proof.
  intros vss v m h T S L ONE. destruct (C38_duration v m h T S L) as (m' & d & E & D). rewrite E. cbn [okq snd]. rewrite D. clear E D d m'.
  assert (X : sumQ (map (fun vs => okq (value_duration vs v m) 0) vss) == integral (times_in vss) h (v_now v)).
  { clear ONE. induction vss as [|vs r IH]; cbn [map sumQ times_in].
    - rewrite integral_zero. reflexivity.
    - destruct (C38_value_duration vs v m h T S L) as (m' & d & E & D). rewrite E. unfold okq at 1. cbn [snd]. rewrite D, IH. symmetry. apply integral_plus. }
  rewrite X. apply integral_levels. auto.
Qed.
(** the statistics of stats_only monitors *)
Definition stat_list (ex0 : bool) (l : list (val * Q)) : list (Q * Q) := if ex0 then filter nonzero (map numof l) else map numof l.
Lemma stat_list_total : forall ex0 g l, total_of g (stat_list ex0 l) == total_of (fun x => if ex0 && zero x then 0 else g (number x)) l.
Proof.
  intros ex0 g l. induction l as [|[x w] r IH]; [destruct ex0; reflexivity|]. destruct ex0; cbn [stat_list map filter numof fst snd andb total_of] in *.
  - change (nonzero (numof (x, w))) with (negb (zero x)). change (numof (x, w)) with (number x, w). destruct (zero x); cbn [negb total_of]; rewrite IH; ring.
  - rewrite IH. reflexivity.
Qed.
Lemma total_drop : forall A (g : A -> Q) l, total_of g (filter (fun p => negb (Qeq_bool (snd p) 0)) l) == total_of g l.
Proof. induction l as [|[x w] r IH]; cbn [filter snd total_of]; [reflexivity|]. destruct (Qeq_bool w 0) eqn:W; cbn [negb total_of]; rewrite IH; [apply Qeqb_true in W; rewrite W; ring|reflexivity]. Qed.
Lemma sta_area : forall v m h l ex0 g, Minv v m h -> Sta v m h l -> (m_level m = true -> m_on m = true -> m_ttm m = v_now v) -> total_of g (stat_list ex0 l) == area (m_level m) ex0 g h (v_now v).
Proof.
  intros v m h l ex0 g I [S0 S1 SP ST1 SI SS] TT. rewrite stat_list_total. unfold area. destruct (m_level m) eqn:L.
  - rewrite <- (SI eq_refl _ (v_now v)). destruct (m_on m); [rewrite (TT eq_refl eq_refl)|]; ring.
  - rewrite (SS eq_refl), total_drop. unfold recorded. rewrite map_rev, total_rev. reflexivity.
Qed.
Lemma stat_acc : forall v m h l ex0, Sta v m h l -> stat (acc_of ex0 m) (stat_list ex0 l).
Proof. intros v m h l [|] [S0 S1 _ _ _ _]; auto. Qed.
Lemma stat_mean : forall a l (ar : (Q -> Q) -> Q), stat a l -> (forall g, total_of g l == ar g) -> mean_spec ar (if Qeq_bool (a_w a) 0 then None else Some (a_mu a)).
Proof.
  intros a l ar [N W MU S _ _] A. pose proof (A (fun _ => 1)) as A1. pose proof (A (fun x => x)) as A2. destruct (Qeq_bool (a_w a) 0) eqn:Z; cbn [mean_spec]; rewrite <- A1, <- W.
  - apply Qeqb_true. auto.
  - apply Qeqb_false in Z. split; auto. rewrite <- A2. auto.
Qed.
Lemma stat_varm : forall a l (ar : (Q -> Q) -> Q), stat a l -> (forall g, total_of g l == ar g) -> var_spec ar (if Qeq_bool (a_w a) 0 then None else Some (a_s a / a_w a)).
Proof.
  intros a l ar ST A. pose proof (stat_var _ _ ST) as V. destruct ST as [N W MU S _ _]. pose proof (A (fun _ => 1)) as A1. pose proof (A (fun x => x)) as A2. destruct (Qeq_bool (a_w a) 0) eqn:Z; cbn [var_spec]; rewrite <- A1, <- W.
  - apply Qeqb_true. auto.
  - apply Qeqb_false in Z. split; auto. intros mu M. rewrite <- A1, <- W, <- A2, <- MU in M. assert (EM : a_mu a == mu) by (symmetry; apply (Qmult_inj_r _ _ _ Z); auto).
    rewrite <- A1, <- W, <- (A (fun x => (x - mu) * (x - mu))). assert (E : total_of (fun x => (x - a_mu a) * (x - a_mu a)) l == total_of (fun x => (x - mu) * (x - mu)) l) by (apply total_ext; intro; rewrite EM; reflexivity). rewrite <- E, <- V. field. auto.
Qed.
Lemma stats_ready : forall v m h, Minv v m h -> m_stats m = true -> exists m1 l, (if m_level m then tally_add_now v m else (m, Mok tt)) = (m1, Mok tt) /\ Sta v m1 h l /\ forall ex0 g, total_of g (stat_list ex0 l) == area (m_level m) ex0 g h (v_now v).
Proof.
  intros v m h I S. destruct (m_level m) eqn:L.
  - destruct (add_now_inv v m h I L S) as (m1 & E & I1 & L1 & T1 & S1 & TT & OO). destruct (mi_sta _ _ _ I1 S1) as (l & ST). exists m1, l. split; auto. split; auto. intros ex0 g. rewrite (sta_area v m1 h l ex0 g I1 ST) by (intros; apply TT; congruence). rewrite L1, L. reflexivity.
  - destruct (mi_sta _ _ _ I S) as (l & ST). exists m, l. split; auto. split; auto. intros ex0 g. rewrite (sta_area v m h l ex0 g I ST) by congruence. rewrite L. reflexivity.
Qed.
Lemma mean_ok : forall v m h ex0, traced v m h -> exists m' r, mean ex0 v m = (m', Mok r) /\ mean_spec (fun g => area (m_level m) ex0 g h (v_now v)) r.
Proof.
  intros v m h ex0 T. unfold mean. destruct (m_stats m) eqn:S.
  - destruct (stats_ready v m h (traced_inv _ _ _ T) S) as (m1 & l & -> & ST & A). eexists _, _. split; [reflexivity|]. eapply stat_mean; [eapply stat_acc; eauto|]. intro g. apply A.
  - destruct (xweight ex0 true v m) as [m' r] eqn:E. destruct (stat_xw v m h ex0 m' r T S E) as [EV A]. eexists _, _. split; [reflexivity|]. apply mean_of_spec; auto.
Qed.
Lemma var_ok : forall v m h ex0, traced v m h -> exists m' r, var ex0 v m = (m', Mok r) /\ var_spec (fun g => area (m_level m) ex0 g h (v_now v)) r.
Proof.
  intros v m h ex0 T. unfold var. destruct (m_stats m) eqn:S.
  - destruct (stats_ready v m h (traced_inv _ _ _ T) S) as (m1 & l & -> & ST & A). eexists _, _. split; [reflexivity|]. eapply stat_varm; [eapply stat_acc; eauto|]. intro g. apply A.
  - destruct (xweight ex0 true v m) as [m' r] eqn:E. destruct (stat_xw v m h ex0 m' r T S E) as [EV A]. eexists _, _. split; [reflexivity|]. apply var_of_spec; auto.
Qed.
(** the mean of a level monitor is the average of the level over the time that it was on *)
Theorem C38_mean : forall v m h, traced v m h -> m_level m = true ->
  exists m' r, mean false v m = (m', Mok r) /\ match r with None => on_time h (v_now v) == 0 | Some mu => ~ on_time h (v_now v) == 0 /\ mu * on_time h (v_now v) == integral number h (v_now v) end.
Proof.
  intros v m h T L. destruct (mean_ok v m h false T) as (m' & r & E & M). exists m', r. split; auto. rewrite L in M. destruct r as [mu|]; cbn [mean_spec] in M; rewrite area_one in M; auto.
Qed.
Example C38_case : traced (sv story1) (sm story1) (sh story1) /\ m_stats (sm story1) = false /\ m_level (sm story1) = true /\ on_time (sh story1) (v_now (sv story1)) == 6 /\ okq (duration false (sv story1) (sm story1)) 0 == 6 /\
  okq (value_duration [Num 5; Num 7] (sv story1) (sm story1)) 0 == 4 /\ okq (value_duration [Num 3] (sv story1) (sm story1)) 0 == 2 /\ okq (bin_duration (BFin 3) (BFin 6) (sv story1) (sm story1)) 0 == 2 /\
  (match snd (mean false (sv story1) (sm story1)) with Mok (Some q) => q == 5 | _ => False end) /\ forall x, In x (levels (sh story1)) -> times_in [[Num 5; Num 7]; [Num 3]] x == 1.
Proof.
  split; [apply story_after; vm_compute; reflexivity|]. do 8 (split; [vm_compute; reflexivity|]). intros x X. assert (L : levels (sh story1) = [Num 7; Num 7; Num 5; Num 5; Num 3]) by (vm_compute; reflexivity). rewrite L in X. destruct X as [<-|[<-|[<-|[<-|[<-|[]]]]]]; vm_compute; reflexivity.
Qed.
(** duration() of a stats_only level monitor: the time since the last tally is missing *)
Definition story4 := story true TAny true true (Num 3) [OTick 2; OTally (Num 5) 1; OTick 3].
Theorem C38_stats_only_refuted : exists v m h m' d, traced v m h /\ m_stats m = true /\ m_level m = true /\ duration false v m = (m', Mok d) /\ ~ d == on_time h (v_now v).
Proof.
  eexists (sv story4), (sm story4), (sh story4), _, _. split; [apply story_after; vm_compute; reflexivity|]. split; [vm_compute; reflexivity|]. split; [vm_compute; reflexivity|]. split; [vm_compute; reflexivity|]. vm_compute. discriminate.
Qed.

(** ** C39: stats_only *)
Lemma mean_unique : forall ar r r', mean_spec ar r -> mean_spec ar r' -> oeq r r'.
Proof.
  intros ar [a|] [b|]; cbn; auto; try tauto. intros [A1 A2] [B1 B2]. apply (Qmult_inj_r _ _ _ A1). rewrite A2, B2. reflexivity.
Qed.
Lemma var_unique : forall ar r r', var_spec ar r -> var_spec ar r' -> oeq r r'.
Proof.
  intros ar [a|] [b|]; cbn; auto; try tauto. intros [A1 A2] [B1 B2]. assert (M : ar (fun x => x) / ar (fun _ => 1) * ar (fun _ => 1) == ar (fun x => x)) by (field; auto). apply (Qmult_inj_r _ _ _ A1). rewrite (A2 _ M), (B2 _ M). reflexivity.
Qed.
(** the running update is right for all values and weights with non-zero partial sums *)
Fixpoint feed (l : list (Q * Q)) (a : acc) : option acc := match l with [] => Some a | (x, w) :: r => match acc_add x w a with None => None | Some a' => feed r a' end end.
Theorem C39_running : forall l, (forall k, (0 < k <= List.length l)%nat -> ~ sumQ (map snd (firstn k l)) == 0) ->
  exists a, feed l acc0 = Some a /\ a_n a = List.length l /\ a_w a == sumQ (map snd l) /\ is_mean l (a_mu a) /\ (l <> [] -> is_variance l (a_mu a) (a_s a / a_w a)) /\
            (l <> [] -> exists lo hi, a_min a = Some lo /\ a_max a = Some hi /\ is_least (map fst l) lo /\ is_largest (map fst l) hi).
Proof.
  assert (G : forall l pre a, stat a (rev pre) -> a_w a == sumQ (map snd pre) -> (forall k, (0 < k <= List.length l)%nat -> ~ sumQ (map snd (pre ++ firstn k l)) == 0) -> exists b, feed l a = Some b /\ stat b (rev (pre ++ l)) /\ a_w b == sumQ (map snd (pre ++ l))).
  { induction l as [|[x w] l IH]; intros pre a ST W NZ; cbn [feed]; [exists a; rewrite app_nil_r; auto|].
    destruct (stat_add a (rev pre) x w ST) as (a' & E & ST').
    - specialize (NZ 1%nat ltac:(cbn; lia)). cbn [firstn] in NZ. rewrite map_app, sumQ_app in NZ. cbn in NZ. rewrite W. intro Z. apply NZ. clear - Z. lra.
    - rewrite E. destruct (IH (pre ++ [(x, w)]) a') as (b & F & SB & WB).
      + rewrite rev_app_distr. auto.
      + unfold acc_add in E. destruct (Qeq_bool (a_w a + w) 0); [discriminate|]. injection E as <-. cbn [a_w]. rewrite map_app, sumQ_app, W. cbn. ring.
      + intros k K. rewrite <- app_assoc. apply (NZ (S k)). cbn. lia.
      + exists b. rewrite <- app_assoc in SB, WB. auto. }
  intros l NZ. destruct (G l [] acc0 stat0 ltac:(reflexivity) NZ) as (a & F & ST & W). cbn [app] in *. pose proof (stat_var _ _ ST) as V. exists a. split; auto. destruct ST as [N SW MU S MI MA].
  assert (R : forall g : Q -> Q, total_of g (rev l) == total_of g l) by (intro; apply total_rev).
  split; [rewrite N, rev_length; auto|]. split; [auto|]. split; [unfold is_mean; rewrite <- (R (fun _ => 1)), <- (R (fun x => x)), <- SW; auto|]. split.
  - intros NE. unfold is_variance. rewrite <- (R (fun _ => 1)), <- (R (fun x => (x - a_mu a) * (x - a_mu a))), <- V, <- SW. field. rewrite W. rewrite <- (firstn_all l). apply NZ. destruct l; [congruence|cbn; lia].
  - intros NE. assert (RN : rev l <> []) by (intro X; apply NE; rewrite <- (rev_involutive l), X; auto).
    destruct (a_min a) as [lo|]; [|congruence]. destruct (a_max a) as [hi|]; [|congruence]. exists lo, hi. split; auto. split; auto. destruct MI as [(y & Y1 & Y2) Y3]. destruct MA as [(z & Z1 & Z2) Z3]. rewrite map_rev in Y1, Z1, Y3, Z3.
    split; [split; [exists y; split; [apply in_rev; auto|auto]|]|split; [exists z; split; [apply in_rev; auto|auto]|]]; intros u U; apply in_rev in U; auto.
Qed.
(** two monitors with the same history, one stats_only, one not: the same mean and the same variance, also at the moment between tallies *)
Theorem C39_mean : forall v m1 m2 h ex0, traced v m1 h -> traced v m2 h -> m_level m1 = m_level m2 -> m_stats m1 = true -> m_stats m2 = false -> exists m1' m2' r1 r2, mean ex0 v m1 = (m1', Mok r1) /\ mean ex0 v m2 = (m2', Mok r2) /\ oeq r1 r2.
Proof.
  intros v m1 m2 h ex0 T1 T2 L _ _. destruct (mean_ok v m1 h ex0 T1) as (m1' & r1 & E1 & M1). destruct (mean_ok v m2 h ex0 T2) as (m2' & r2 & E2 & M2). exists m1', m2', r1, r2. split; auto. split; auto. rewrite L in M1. eapply mean_unique; eauto.
Qed.
Theorem C39_variance : forall v m1 m2 h ex0, traced v m1 h -> traced v m2 h -> m_level m1 = m_level m2 -> m_stats m1 = true -> m_stats m2 = false -> exists m1' m2' r1 r2, var ex0 v m1 = (m1', Mok r1) /\ var ex0 v m2 = (m2', Mok r2) /\ oeq r1 r2.
Proof.
  intros v m1 m2 h ex0 T1 T2 L _ _. destruct (var_ok v m1 h ex0 T1) as (m1' & r1 & E1 & M1). destruct (var_ok v m2 h ex0 T2) as (m2' & r2 & E2 & M2). exists m1', m2', r1, r2. split; auto. split; auto. rewrite L in M1. eapply var_unique; eauto.
Qed.
(** least and largest *)
Lemma fold_min : forall l a, (exists x, In x (a :: l) /\ x = fold_left min2 l a) /\ forall x, In x (a :: l) -> fold_left min2 l a <= x.
Proof.
  induction l as [|b l IH]; intro a; cbn [fold_left]; [split; [exists a; split; [left; auto|auto]|intros x [<-|[]]; apply Qle_refl]|].
  destruct (IH (min2 a b)) as [(y & Y1 & Y2) Y3]. assert (M : min2 a b <= a /\ min2 a b <= b /\ (min2 a b = a \/ min2 a b = b)) by (unfold min2; destruct (Qltb b a) eqn:E; [apply Qltb_iff in E|apply Qltb_false_iff in E]; repeat split; auto; lra). destruct M as (M1 & M2 & M3). split.
  - exists y. split; auto. destruct Y1 as [<-|Y1]; [|right; right; auto]. destruct M3 as [->| ->]; [left; auto|right; left; auto].
  - pose proof (Y3 (min2 a b) (or_introl eq_refl)) as Y4. intros x [<-|[<-|X]]; [lra|lra|apply Y3; right; auto].
Qed.
Lemma fold_max : forall l a, (exists x, In x (a :: l) /\ x = fold_left max2 l a) /\ forall x, In x (a :: l) -> x <= fold_left max2 l a.
Proof.
  induction l as [|b l IH]; intro a; cbn [fold_left]; [split; [exists a; split; [left; auto|auto]|intros x [<-|[]]; apply Qle_refl]|].
  destruct (IH (max2 a b)) as [(y & Y1 & Y2) Y3]. assert (M : a <= max2 a b /\ b <= max2 a b /\ (max2 a b = a \/ max2 a b = b)) by (unfold max2; destruct (Qltb a b) eqn:E; [apply Qltb_iff in E|apply Qltb_false_iff in E]; repeat split; auto; lra). destruct M as (M1 & M2 & M3). split.
  - exists y. split; auto. destruct Y1 as [<-|Y1]; [|right; right; auto]. destruct M3 as [->| ->]; [left; auto|right; left; auto].
  - pose proof (Y3 (max2 a b) (or_introl eq_refl)) as Y4. intros x [<-|[<-|X]]; [lra|lra|apply Y3; right; auto].
Qed.
Definition least_spec (l : list Q) (r : option Q) : Prop := match r with None => l = [] | Some q => is_least l q end.
Definition largest_spec (l : list Q) (r : option Q) : Prop := match r with None => l = [] | Some q => is_largest l q end.
Lemma min_of_spec : forall x, least_spec (map numq x) (min_of x).
Proof. intro x. unfold min_of. destruct (map numq x) as [|a r] eqn:E; cbn [least_spec]; auto. destruct (fold_min r a) as [(y & Y1 & Y2) Y3]. split; auto. exists y. split; auto. rewrite Y2. reflexivity. Qed.
Lemma max_of_spec : forall x, largest_spec (map numq x) (max_of x).
Proof. intro x. unfold max_of. destruct (map numq x) as [|a r] eqn:E; cbn [largest_spec]; auto. destruct (fold_max r a) as [(y & Y1 & Y2) Y3]. split; auto. exists y. split; auto. rewrite Y2. reflexivity. Qed.
Lemma least_unique : forall l k r r', (forall x, In x l <-> In x k) -> least_spec l r -> least_spec k r' -> oeq r r'.
Proof.
  intros l k [a|] [b|] E A B; cbn in *; auto.
  - destruct A as [(x & X1 & X2) X3], B as [(y & Y1 & Y2) Y3]. pose proof (X3 y (proj2 (E y) Y1)). pose proof (Y3 x (proj1 (E x) X1)). lra.
  - subst k. destruct A as [(x & X1 & X2) X3]. destruct (proj1 (E x) X1).
  - subst l. destruct B as [(x & X1 & X2) X3]. destruct (proj2 (E x) X1).
Qed.
Lemma largest_unique : forall l k r r', (forall x, In x l <-> In x k) -> largest_spec l r -> largest_spec k r' -> oeq r r'.
Proof.
  intros l k [a|] [b|] E A B; cbn in *; auto.
  - destruct A as [(x & X1 & X2) X3], B as [(y & Y1 & Y2) Y3]. pose proof (X3 y (proj2 (E y) Y1)). pose proof (Y3 x (proj1 (E x) X1)). lra.
  - subst k. destruct A as [(x & X1 & X2) X3]. destruct (proj1 (E x) X1).
  - subst l. destruct B as [(x & X1 & X2) X3]. destruct (proj2 (E x) X1).
Qed.
Lemma map_numq_data : forall ex0 h, map numq (map fst (map (fun p : Q * Q => (Num (fst p), snd p)) (data ex0 h))) = map fst (data ex0 h).
Proof. intros. rewrite !map_map. cbn [fst numq]. auto. Qed.
Lemma data_stat : forall v m h l ex0, Sta v m h l -> m_level m = false -> (forall t x w, In (t, x, w) (seen h) -> ~ w == 0) -> data ex0 h = rev (stat_list ex0 l).
Proof.
  intros v m h l ex0 ST L NZ. assert (E : l = map (fun p => (snd (fst p), snd p)) (seen h)).
  { rewrite (sa_seen _ _ _ _ ST L). clear ST. induction (seen h) as [|[[t x] w] r IH]; auto. cbn [map filter snd fst]. assert (W : Qeq_bool w 0 = false) by (apply Qeqb_false; apply (NZ t x w); left; auto). rewrite W. cbn [negb]. f_equal. apply IH. intros t' x' w' I. apply (NZ t' x' w'). right. auto. }
  unfold data, recorded. rewrite map_rev, <- E, filter_rev', map_rev. f_equal. clear. induction l as [|[x w] r IH]; [destruct ex0; auto|]. destruct ex0; cbn [stat_list filter fst andb map] in *.
  - change (nonzero (numof (x, w))) with (negb (zero x)). change (numof (x, w)) with (number x, w). destruct (zero x); cbn [negb map fst snd]; congruence.
  - cbn [negb] in *. change (numof (x, w)) with (number x, w). rewrite <- IH. reflexivity.
Qed.
Theorem C39_entries : forall v m1 m2 h ex0, traced v m1 h -> traced v m2 h -> m_level m1 = false -> m_level m2 = false -> m_stats m1 = true -> m_stats m2 = false -> (forall t x w, In (t, x, w) (seen h) -> ~ w == 0) ->
  snd (number_of_entries ex0 v m1) = snd (number_of_entries ex0 v m2) /\ snd (number_of_entries ex0 v m1) = Mok (List.length (data ex0 h)) /\ oeq (snd (minimum ex0 v m1)) (snd (minimum ex0 v m2)) /\ oeq (snd (maximum ex0 v m1)) (snd (maximum ex0 v m2)).
Proof.
  intros v m1 m2 h ex0 T1 T2 L1 L2 S1 S2 NZ. destruct (mi_sta _ _ _ (traced_inv _ _ _ T1) S1) as (l & ST). pose proof (data_stat _ _ _ _ ex0 ST L1 NZ) as D. pose proof (stat_acc _ _ _ _ ex0 ST) as A.
  unfold number_of_entries, minimum, maximum. rewrite L1, L2, S1, S2. destruct (xweight ex0 true v m2) as [m' r] eqn:E. destruct (stat_xw_plain v m2 h ex0 m' r T2 S2 L2 E) as [W1 _]. cbn [both fst] in W1. cbn [snd].
  assert (IN : forall x, In x (map fst (stat_list ex0 l)) <-> In x (map numq (fst r))) by (intro x; rewrite W1, map_numq_data, D, map_rev; apply in_rev).
  split; [|split; [|split]].
  - rewrite (st_n _ _ A), W1, !map_length, D, rev_length. auto.
  - rewrite (st_n _ _ A), D, rev_length. auto.
  - eapply least_unique; [exact IN| |apply min_of_spec]. pose proof (st_n _ _ A) as N. pose proof (st_min _ _ A) as MI. destruct (a_min (acc_of ex0 m1)) as [q|].
    + destruct (Nat.eqb_spec (a_n (acc_of ex0 m1)) 0) as [Z|Z]; cbn [least_spec]; auto. rewrite Z in N. destruct (stat_list ex0 l); [auto|discriminate].
    + rewrite MI in *. cbn in N. rewrite N. cbn. auto.
  - eapply largest_unique; [exact IN| |apply max_of_spec]. pose proof (st_n _ _ A) as N. pose proof (st_max _ _ A) as MI. destruct (a_max (acc_of ex0 m1)) as [q|].
    + destruct (Nat.eqb_spec (a_n (acc_of ex0 m1)) 0) as [Z|Z]; cbn [largest_spec]; auto. rewrite Z in N. destruct (stat_list ex0 l); [auto|discriminate].
    + rewrite MI in *. cbn in N. rewrite N. cbn. auto.
Qed.
Theorem C39_weight : forall v m1 m2 h ex0, traced v m1 h -> traced v m2 h -> m_level m1 = false -> m_level m2 = false -> m_stats m1 = true -> m_stats m2 = false ->
  exists m1' m2' w1 w2, weight ex0 v m1 = (m1', Mok w1) /\ weight ex0 v m2 = (m2', Mok w2) /\ w1 == w2.
Proof.
  intros v m1 m2 h ex0 T1 T2 L1 L2 S1 S2. destruct (mi_sta _ _ _ (traced_inv _ _ _ T1) S1) as (l & ST). pose proof (stat_acc _ _ _ _ ex0 ST) as A. unfold weight, sys_weight. rewrite L1, L2, S1, S2. destruct (xweight ex0 true v m2) as [m' r] eqn:E.
  eexists _, _, _, _. split; [reflexivity|]. split; [reflexivity|]. destruct (stat_xw v m2 h ex0 m' r T2 S2 E) as [EV AR]. rewrite (sumQ_total r EV), (AR (fun _ => 1)), (st_w _ _ A), (sta_area v m1 h l ex0 _ (traced_inv _ _ _ T1) ST) by congruence. rewrite L1, L2. reflexivity.
Qed.
Definition ops5 := [OTally (Num 2) 1; OTick 1; OTally (Num 5) 3; OMonitor false; OTally (Num 100) 1; OMonitor true; OTally (Num (1#2)) 2; OTally (Num 0) 1; OTick 2].
Definition story5 stats := story false TAny stats true (Num 0) ops5.
Example C39_case : traced (sv (story5 true)) (sm (story5 true)) (sh (story5 true)) /\ traced (sv (story5 false)) (sm (story5 false)) (sh (story5 false)) /\ sv (story5 true) = sv (story5 false) /\ sh (story5 true) = sh (story5 false) /\
  (match snd (mean false (sv (story5 true)) (sm (story5 true))) with Mok (Some q) => q == 18 # 7 | _ => False end) /\ forallb (fun p => negb (Qeq_bool (snd p) 0)) (seen (sh (story5 true))) = true /\ List.length (data true (sh (story5 true))) = 3%nat.
Proof. split; [apply story_after; vm_compute; reflexivity|]. split; [apply story_after; vm_compute; reflexivity|]. vm_compute. repeat (split; [reflexivity|]). reflexivity. Qed.
Example C39_case_level : let s b := story true TAny b true (Num 3) [OTick 2; OTally (Num 5) 1; OTick 2; OMonitor false; OTick 1; OTally (Num 7) 1; OTick 1; OMonitor true; OTick 2] in
  traced (sv (s true)) (sm (s true)) (sh (s true)) /\ sv (s true) = sv (s false) /\ sh (s true) = sh (s false) /\ match snd (mean false (sv (s true)) (sm (s true))), snd (var false (sv (s true)) (sm (s true))) with Mok (Some q), Mok (Some r) => q == 5 /\ r == 8 # 3 | _, _ => False end.
Proof. split; [apply story_after; vm_compute; reflexivity|]. vm_compute. repeat (split; [reflexivity|]). reflexivity. Qed.
(** values with weight 0 are not counted by a stats_only monitor, but are by the other *)
Definition story6 stats := story false TAny stats true (Num 0) [OTally (Num 2) 1; OTally (Num 9) 0].
Theorem C39_zero_weight_refuted : exists v m1 m2 h, traced v m1 h /\ traced v m2 h /\ m_level m1 = false /\ m_level m2 = false /\ m_stats m1 = true /\ m_stats m2 = false /\
  snd (number_of_entries false v m1) = Mok 1%nat /\ snd (number_of_entries false v m2) = Mok 2%nat /\ snd (maximum false v m1) = Some 2 /\ snd (maximum false v m2) = Some 9.
Proof.
  exists (sv (story6 true)), (sm (story6 true)), (sm (story6 false)), (sh (story6 true)). split; [apply story_after; vm_compute; reflexivity|].
  assert (E : sv (story6 true) = sv (story6 false) /\ sh (story6 true) = sh (story6 false)) by (vm_compute; split; reflexivity). destruct E as [E1 E2]. split; [rewrite E1, E2; apply story_after; vm_compute; reflexivity|]. vm_compute. auto 10.
Qed.
(** the largest value of a level monitor: the present level is not yet in the statistics of a stats_only monitor *)
Definition story7 stats := story true TAny stats true (Num 2) [OTick 1; OTally (Num 9) 1; OTick 1].
Theorem C39_level_maximum_refuted : exists v m1 m2 h, traced v m1 h /\ traced v m2 h /\ m_level m1 = true /\ m_level m2 = true /\ m_stats m1 = true /\ m_stats m2 = false /\
  snd (maximum false v m1) = Some 2 /\ snd (maximum false v m2) = Some 9.
Proof.
  exists (sv (story7 true)), (sm (story7 true)), (sm (story7 false)), (sh (story7 true)). split; [apply story_after; vm_compute; reflexivity|].
  assert (E : sv (story7 true) = sv (story7 false) /\ sh (story7 true) = sh (story7 false)) by (vm_compute; split; reflexivity). destruct E as [E1 E2]. split; [rewrite E1, E2; apply story_after; vm_compute; reflexivity|]. vm_compute. auto 10.
Qed.

(** ** C40: weights *)
(** every tallied value with its weight, in order *)
Theorem C40_weights : forall v m h, traced v m h -> m_stats m = false -> m_level m = false -> exists m' xs ws, xweight false false v m = (m', (xs, ws)) /\ xs = map fst (recorded h) /\ Forall2 Qeq ws (map snd (recorded h)).
Proof.
  intros v m h T S L. destruct (xweight false false v m) as [m' [xs ws]] eqn:E. exists m', xs, ws. split; auto. destruct (stat_xv_plain v m h m' _ T S L E) as [A B]. auto.
Qed.
(** and its time *)
Theorem C40_times : forall v m h, traced v m h -> m_stats m = false -> m_level m = false -> rev (m_e m) = map fst (rev (seen h)).
Proof. intros v m h T S L. destruct (mi_pla _ _ _ (traced_inv _ _ _ T) S L) as [E _ _]. rewrite E, map_rev. auto. Qed.
Lemma sumQ_F2 : forall l k, Forall2 Qeq l k -> sumQ l == sumQ k.
Proof. intros l k F. induction F as [|a b l k Q F IH]; cbn; [reflexivity|]. rewrite Q, IH. reflexivity. Qed.
Theorem C40_entries : forall v m h ex0, traced v m h -> m_stats m = false -> m_level m = false ->
  snd (number_of_entries ex0 v m) = Mok (List.length (data ex0 h)) /\ (exists m' w, weight ex0 v m = (m', Mok w) /\ w == sumQ (map snd (data ex0 h))) /\ least_spec (map fst (data ex0 h)) (snd (minimum ex0 v m)) /\ largest_spec (map fst (data ex0 h)) (snd (maximum ex0 v m)).
Proof.
  intros v m h ex0 T S L. unfold number_of_entries, weight, sys_weight, minimum, maximum. rewrite L, S. destruct (xweight ex0 true v m) as [m' r] eqn:E. destruct (stat_xw_plain v m h ex0 m' r T S L E) as [W1 W2]. cbn [both fst snd] in W1, W2. cbn [snd].
  split; [rewrite W1, !map_length; auto|]. split; [|rewrite <- map_numq_data, <- W1; split; [apply min_of_spec|apply max_of_spec]]. eexists _, _. split; [reflexivity|]. rewrite map_map in W2. cbn [snd] in W2. apply sumQ_F2. exact W2.
Qed.
(** mean and variance are the weighted ones *)
Theorem C40_mean : forall v m h ex0, traced v m h -> m_level m = false -> exists m' r, mean ex0 v m = (m', Mok r) /\ match r with None => sumQ (map snd (data ex0 h)) == 0 | Some mu => ~ sumQ (map snd (data ex0 h)) == 0 /\ is_mean (data ex0 h) mu end.
Proof.
  intros v m h ex0 T L. destruct (mean_ok v m h ex0 T) as (m' & r & E & M). exists m', r. split; auto. rewrite L in M. assert (W : sumQ (map snd (data ex0 h)) == area false ex0 (fun _ => 1) h (v_now v)) by (rewrite <- data_total; clear; induction (data ex0 h) as [|[x w] l IH]; cbn; [reflexivity|]; rewrite IH; ring).
  destruct r as [mu|]; cbn [mean_spec] in M; [|rewrite W; auto]. destruct M as [M1 M2]. split; [rewrite W; auto|]. unfold is_mean. rewrite !(data_total ex0 _ h (v_now v)). auto.
Qed.
Theorem C40_variance : forall v m h ex0, traced v m h -> m_level m = false -> exists m' r, var ex0 v m = (m', Mok r) /\ match r with None => sumQ (map snd (data ex0 h)) == 0 | Some s => ~ sumQ (map snd (data ex0 h)) == 0 /\ forall mu, is_mean (data ex0 h) mu -> is_variance (data ex0 h) mu s end.
Proof.
  intros v m h ex0 T L. destruct (var_ok v m h ex0 T) as (m' & r & E & M). exists m', r. split; auto. rewrite L in M. assert (W : sumQ (map snd (data ex0 h)) == area false ex0 (fun _ => 1) h (v_now v)) by (rewrite <- data_total; clear; induction (data ex0 h) as [|[x w] l IH]; cbn; [reflexivity|]; rewrite IH; ring).
  destruct r as [mu|]; cbn [var_spec] in M; [|rewrite W; auto]. destruct M as [M1 M2]. split; [rewrite W; auto|]. intros mu' IM. unfold is_variance. rewrite !(data_total ex0 _ h (v_now v)). apply M2. unfold is_mean in IM. rewrite !(data_total ex0 _ h (v_now v)) in IM. auto.
Qed.
(** value_weight, value_number_of_entries *)
Theorem C40_value : forall vs v m h, traced v m h -> m_stats m = false -> m_level m = false ->
  snd (value_number_of_entries vs v m) = Mok (List.length (filter (fun p => existsb (veqb (fst p)) vs) (recorded h))) /\
  exists m' w, value_weight vs v m = (m', Mok w) /\ w == sumQ (map snd (filter (fun p => existsb (veqb (fst p)) vs) (recorded h))).
Proof.
  intros vs v m h T S L. unfold value_number_of_entries, value_weight. rewrite L, S. destruct (xweight false false v m) as [m' r] eqn:E. pose proof (stat_xv_plain v m h m' r T S L E) as W. cbn [snd]. split.
  - f_equal. unfold value_count. rewrite (proj1 W). cbn [both fst]. unfold is_one. rewrite <- (map_filter_fst (fun x => existsb (veqb x) vs)), map_length. auto.
  - eexists _, _. split; [reflexivity|]. unfold value_weight_of. rewrite sumQ_filter_total. rewrite (weq_totals _ _ W _), both_pairs. symmetry. apply (sumQ_filter_total (is_one vs)).
Qed.
Example C40_case : let s := story5 false in traced (sv s) (sm s) (sh s) /\ m_stats (sm s) = false /\ m_level (sm s) = false /\ recorded (sh s) = [(Num 2, 1); (Num 5, 3); (Num (1 # 2), 2); (Num 0, 1)] /\ m_w (sm s) = WList [1; 2; 3; 1].
Proof. split; [apply story_after; vm_compute; reflexivity|]. vm_compute. repeat (split; [reflexivity|]). reflexivity. Qed.
(** when a tally with a weight raises because the value does not fit (and the exception is caught), the weights are out of step with the values *)
Definition story8 := story false ty_int8 false true (Num 0) [OTally (Num 1) 1].
Theorem C40_rejected_refuted : exists v m h m1 e m2 m', traced v m h /\ m_stats m = false /\ m_level m = false /\ tally (Num 200) 5 v m = (m1, Mer e) /\ tally (Num 2) 3 v m1 = (m2, Mok tt) /\
  xweight false false v m2 = (m', ([Num 1; Num 2], [1; 5; 3])).
Proof. eexists (sv story8), (sm story8), (sh story8), _, _, _, _. split; [apply story_after; vm_compute; reflexivity|]. do 4 (split; [vm_compute; reflexivity|]). vm_compute. reflexivity. Qed.
(** scaling a monitor that has weights: the result has lost them *)
Definition story9 ty := story false ty false true (Num 0) [OTally (Num 1) 1; OTally (Num 4) 3].
Theorem C40_multiply_refuted : exists v m h m' q r, traced v m h /\ multiply 2 v m = Mok m' /\ snd (mean false v m) = Mok (Some q) /\ snd (mean false v m') = Mok (Some r) /\ ~ r == 2 * q.
Proof. eexists (sv (story9 TFloat)), (sm (story9 TFloat)), (sh (story9 TFloat)), _, _, _. split; [apply story_after; vm_compute; reflexivity|]. split; [vm_compute; reflexivity|]. split; [vm_compute; reflexivity|]. split; [vm_compute; reflexivity|]. vm_compute. discriminate. Qed.
Theorem C40_x_map_refuted : exists v m h m' q r, traced v m h /\ x_map (fun x => x) v m = Mok m' /\ snd (mean false v m) = Mok (Some q) /\ snd (mean false v m') = Mok (Some r) /\ ~ r == q.
Proof. eexists (sv (story9 TAny)), (sm (story9 TAny)), (sh (story9 TAny)), _, _, _. split; [apply story_after; vm_compute; reflexivity|]. split; [vm_compute; reflexivity|]. split; [vm_compute; reflexivity|]. split; [vm_compute; reflexivity|]. vm_compute. discriminate. Qed.

(** ** C41: bins *)
Fixpoint bins (lo : bound) (l : list Q) : list (bound * bound) := match l with [] => [(lo, BInf)] | q :: r => (lo, BFin q) :: bins (BFin q) r end.
Fixpoint sumn (l : list nat) : nat := match l with [] => O | a :: r => (a + sumn r)%nat end.
Definition ind (b : bool) : Q := if b then 1 else 0.
Lemma bins_once : forall l lo x, sorted l -> (forall q, In q l -> match lo with BNegInf => True | BFin a => a <= q | BInf => False end) -> (lo = BInf -> False) ->
  (above lo (numq x) = true -> sumn (map (fun b => if in_bin (fst b) (snd b) x then 1%nat else 0%nat) (bins lo l)) = 1%nat) /\ (above lo (numq x) = false -> sumn (map (fun b => if in_bin (fst b) (snd b) x then 1%nat else 0%nat) (bins lo l)) = 0%nat).
Proof.
  induction l as [|q r IH]; intros lo x S LO NI; cbn [bins map fst snd sumn].
  - unfold in_bin. cbn [upto]. rewrite andb_true_r. destruct (above lo (numq x)); split; auto; discriminate.
  - assert (SR : sorted r) by (intros i j I J; apply (S (Datatypes.S i) (Datatypes.S j)); cbn; lia). assert (LR : forall q', In q' r -> q <= q').
    { intros q' I. apply In_nth with (d := 0) in I. destruct I as (n & N & <-). apply (S 0%nat (Datatypes.S n)); cbn; lia. }
    destruct (IH (BFin q) x SR LR ltac:(discriminate)) as [A B]. unfold in_bin at 1 3. cbn [upto]. change (above (BFin q) (numq x)) with (Qltb q (numq x)) in A, B.
    assert (LQ : Qltb q (numq x) = true -> above lo (numq x) = true). { intro X. apply Qltb_iff in X. pose proof (LO q (or_introl eq_refl)) as Y. destruct lo; cbn; auto. apply Qltb_iff. lra. }
    destruct (Qltb q (numq x)) eqn:Q.
    + rewrite LQ by auto. assert (U : Qle_bool (numq x) q = false) by (apply Qle_bool_false_iff; apply Qltb_iff; auto). rewrite U, A by auto. split; auto. discriminate.
    + assert (U : Qle_bool (numq x) q = true) by (apply Qle_bool_iff; apply Qltb_false_iff; auto). rewrite U, B, andb_true_r by auto. destruct (above lo (numq x)); split; auto; discriminate.
Qed.
Lemma bins_all : forall l x, sorted l -> sumn (map (fun b => if in_bin (fst b) (snd b) x then 1%nat else 0%nat) (bins BNegInf l)) = 1%nat.
Proof. intros l x S. apply (bins_once l BNegInf x S); auto. discriminate. Qed.
Lemma bins_count : forall bs r, (forall x, sumn (map (fun b => if in_bin (fst b) (snd b) x then 1%nat else 0%nat) bs) = 1%nat) -> sumn (map (fun b => bin_count (fst b) (snd b) r) bs) = List.length (fst r).
Proof.
  intros bs [xs ws] ONE. unfold bin_count. cbn [fst]. clear ws. induction xs as [|x xs IH].
  - cbn. clear. induction bs; cbn; auto.
  - cbn [List.length]. rewrite <- IH. match goal with |- _ = Datatypes.S ?n => change (Datatypes.S n) with (1 + n)%nat end. rewrite <- (ONE x) at 1. clear. induction bs as [|b r IH]; cbn [map sumn]; auto. rewrite IH. cbn [filter]. destruct (in_bin (fst b) (snd b) x); cbn [List.length]; lia.
Qed.
Lemma bins_weight : forall bs r, even r -> (forall x, sumn (map (fun b => if in_bin (fst b) (snd b) x then 1%nat else 0%nat) bs) = 1%nat) -> sumQ (map (fun b => bin_weight_of (fst b) (snd b) r) bs) == sumQ (snd r).
Proof.
  intros bs r EV ONE. rewrite (sumQ_total r EV). unfold bin_weight_of. fold (pairs r). generalize (pairs r). intro l.
  assert (X : sumQ (map (fun b => sumQ (map snd (filter (fun p => in_bin (fst b) (snd b) (fst p)) l))) bs) == total_of (fun x => inject_Z (Z.of_nat (sumn (map (fun b => if in_bin (fst b) (snd b) x then 1%nat else 0%nat) bs)))) l).
  { clear ONE. induction bs as [|b bs IH]; cbn [map sumQ sumn].
    - clear. induction l as [|[x w] r IH]; cbn [total_of]; [reflexivity|]. rewrite <- IH. change (inject_Z (Z.of_nat 0)) with 0. ring.
    - rewrite IH, sumQ_filter_total, <- total_plus. apply total_ext. intro x. rewrite Nat2Z.inj_add, inject_Z_plus. destruct (in_bin (fst b) (snd b) x); reflexivity. }
  rewrite X. apply total_ext. intro x. rewrite ONE. reflexivity.
Qed.
Theorem C41_entries : forall l v m h ex0, traced v m h -> m_stats m = false -> m_level m = false -> sorted l ->
  sumn (map (fun b => okq (bin_number_of_entries (fst b) (snd b) ex0 v m) 0%nat) (bins BNegInf l)) = okq (number_of_entries ex0 v m) 0%nat.
Proof.
  intros l v m h ex0 T S L SO. unfold bin_number_of_entries, number_of_entries. rewrite S, L. destruct (xweight ex0 true v m) as [m' r] eqn:E. cbn [okq snd]. apply bins_count. intro x. apply bins_all. auto.
Qed.
Theorem C41_weight : forall l v m h, traced v m h -> m_stats m = false -> m_level m = false -> sorted l ->
  sumQ (map (fun b => okq (bin_weight (fst b) (snd b) v m) 0) (bins BNegInf l)) == okq (weight false v m) 0.
Proof.
  intros l v m h T S L SO. unfold bin_weight, weight, sys_weight. rewrite S, L. destruct (xweight false true v m) as [m' r] eqn:E. cbn [okq snd]. apply bins_weight; [eapply stat_xw; eauto|]. intro x. apply bins_all. auto.
Qed.
Theorem C41_duration : forall l v m h, traced v m h -> m_stats m = false -> m_level m = true -> sorted l ->
  sumQ (map (fun b => okq (bin_duration (fst b) (snd b) v m) 0) (bins BNegInf l)) == okq (duration false v m) 0.
Proof.
  intros l v m h T S L SO. unfold bin_duration, duration, sys_weight. rewrite S, L. cbn [negb]. destruct (xweight false true v m) as [m' r] eqn:E. cbn [okq snd]. apply bins_weight; [eapply stat_xw; eauto|]. intro x. apply bins_all. auto.
Qed.
Example C41_case : let s := story5 false in traced (sv s) (sm s) (sh s) /\ bins BNegInf [0; 2; 4] = [(BNegInf, BFin 0); (BFin 0, BFin 2); (BFin 2, BFin 4); (BFin 4, BInf)] /\ sorted [0; 2; 4] /\
  map (fun b => okq (bin_number_of_entries (fst b) (snd b) false (sv s) (sm s)) 0%nat) (bins BNegInf [0; 2; 4]) = [1; 2; 0; 1]%nat /\ map (fun b => Qred (okq (bin_weight (fst b) (snd b) (sv s) (sm s)) 0)) (bins BNegInf [0; 2; 4]) = [1; 3; 0; 3].
Proof. split; [apply story_after; vm_compute; reflexivity|]. split; [auto|]. split; [|vm_compute; auto]. intros i j I J. destruct j as [|[|[|j]]], i as [|[|[|i]]]; cbn in *; try lia; lra. Qed.

(** ** C61: the results do not depend on what was asked before *)
Definition cold (m : mon) : mon := set_cache [] m.
Lemma xweight_cold : forall ex0 force v m, snd (xweight ex0 force v (cold m)) = xweight0 ex0 force v m.
Proof. reflexivity. Qed.
Theorem C61_same_values : forall v m h ex0 force, traced v m h -> m_stats m = false -> m_level m = false \/ on_of h = true ->
  fst (snd (xweight ex0 force v m)) = fst (snd (xweight ex0 force v (cold m))) /\ Forall2 Qeq (snd (snd (xweight ex0 force v m))) (snd (snd (xweight ex0 force v (cold m)))).
Proof.
  intros v m h ex0 force T S O. rewrite xweight_cold. destruct (xweight ex0 force v m) as [m' r] eqn:E. cbn [fst snd]. destruct (xweight_cinv v m h ex0 force m' r (traced_inv _ _ _ T) (traced_cinv _ _ _ T) S E) as (_ & (_ & _ & G) & _). apply G. rewrite (mi_on _ _ _ (traced_inv _ _ _ T)). tauto.
Qed.
Theorem C61_extremes : forall v m h ex0, traced v m h -> m_stats m = false -> m_level m = false \/ on_of h = true -> snd (minimum ex0 v m) = snd (minimum ex0 v (cold m)) /\ snd (maximum ex0 v m) = snd (maximum ex0 v (cold m)).
Proof.
  intros v m h ex0 T S O. destruct (C61_same_values v m h ex0 true T S O) as [E _]. unfold minimum, maximum. change (m_stats (cold m)) with (m_stats m). rewrite S. destruct (xweight ex0 true v m) as [m1 r1], (xweight ex0 true v (cold m)) as [m2 r2]. cbn [fst snd] in *. rewrite E. auto.
Qed.
(** the total weight, the mean and the variance: also while off *)
Theorem C61_sums : forall v m h ex0, traced v m h -> m_stats m = false ->
  snd (sys_weight ex0 v m) == snd (sys_weight ex0 v (cold m)) /\ (match snd (mean ex0 v m), snd (mean ex0 v (cold m)) with Mok a, Mok b => oeq a b | _, _ => False end) /\ (match snd (var ex0 v m), snd (var ex0 v (cold m)) with Mok a, Mok b => oeq a b | _, _ => False end).
Proof.
  intros v m h ex0 T S. unfold sys_weight, mean, var. change (m_stats (cold m)) with (m_stats m). rewrite S. pose proof (xweight_cold ex0 true v m) as C. destruct (xweight ex0 true v m) as [m1 r1] eqn:E, (xweight ex0 true v (cold m)) as [m2 r2]. cbn [snd] in *. subst r2. destruct (stat_xw v m h ex0 m1 r1 T S E) as [EV A].
  destruct (xweight_cinv v m h ex0 true m1 r1 (traced_inv _ _ _ T) (traced_cinv _ _ _ T) S E) as (_ & (_ & G & _) & _). cbn [fst snd] in G. pose proof (minv_even v m h ex0 true (traced_inv _ _ _ T) S) as EV2.
  assert (A2 : forall g, total_of (fun x => g (numq x)) (pairs (xweight0 ex0 true v m)) == area (m_level m) ex0 g h (v_now v)) by (intro g; rewrite <- (G _); apply A).
  split; [rewrite (sumQ_total _ EV), (sumQ_total _ EV2); apply G|]. split; [apply mean_unique with (ar := fun g => area (m_level m) ex0 g h (v_now v)); apply mean_of_spec; auto|apply var_unique with (ar := fun g => area (m_level m) ex0 g h (v_now v)); apply var_of_spec; auto].
Qed.
(** but not the extremes while off: turning a level monitor off does not invalidate the cache *)
Definition story10 := story true TAny false true (Num 2) [OTick 1; OTally (Num 9) 1; OStat false true; OMonitor false].
Theorem C61_off_refuted : exists v m h, traced v m h /\ m_stats m = false /\ snd (maximum false v m) = Some 9 /\ snd (maximum false v (cold m)) = Some 2.
Proof. exists (sv story10), (sm story10), (sh story10). split; [apply story_after; vm_compute; reflexivity|]. vm_compute. repeat (split; [reflexivity|]). reflexivity. Qed.
Example C61_case : let s := story true TAny false true (Num 2) [OTick 1; OTally (Num 9) 1; OStat false true; OTick 1; OStat false true; OStat true true] in
  traced (sv s) (sm s) (sh s) /\ List.length (m_cache (sm s)) = 3%nat /\ on_of (sh s) = true /\ snd (maximum false (sv s) (sm s)) = Some 9.
Proof. split; [apply story_after; vm_compute; reflexivity|]. vm_compute. repeat (split; [reflexivity|]). reflexivity. Qed.

(** ** C62: the extremes of a level monitor *)
Lemma mexec_type : forall o v m h s' u, Minv v m h -> op_ok o m -> mexec o (v, m) = (s', u) -> m_type (snd s') = m_type m /\ m_level (snd s') = m_level m.
Proof.
  intros o v m h s' u I OK E. destruct o; cbn [mexec] in E.
  - destruct OK as [A B]. destruct (tally_inv v m h x w I A B) as (m1 & r & E1 & _ & L & T & _). rewrite E1 in E. injection E as <- <-. auto.
  - destruct (monitor_inv v m h b I) as (m1 & E1 & _ & L & T & _). rewrite E1 in E. injection E as <- <-. auto.
  - edestruct start_inv with (v := v) (m := m) (h := h) (e := HReset mo) (mo := mo) (so := so) as (m1 & E1 & _ & L & T & _); auto.
    + apply (mi_gen _ _ _ I).
    + apply (mi_val _ _ _ I).
    + apply (mi_ok _ _ _ I).
    + cbn [on_of]. destruct mo; auto. apply (mi_on _ _ _ I).
    + rewrite E1 in E. injection E as <- <-. auto.
  - injection E as <- <-. auto.
  - injection E as <- <-. auto.
  - destruct (m_stats m); injection E as <- <-; auto. unfold xweight. destruct (cget (ex0, force) (m_cache m)) as [[t r]|]; [destruct (Qeq_bool t (v_now v))|]; auto.
  - destruct (m_stats m) eqn:S, (m_level m) eqn:L; cbn [andb] in E; try (injection E as <- <-; auto; fail). destruct (add_now_inv v m h I L S) as (m1 & E1 & _ & L1 & T1 & _). rewrite E1 in E. injection E as <- <-. cbn [snd]. split; congruence.
Qed.
Lemma levels_ok : forall v m h, traced v m h -> m_level m = true -> forall x, In x (levels h) -> veqb x (m_off m) = false /\ fits (m_type m) x = true.
Proof.
  intros v m h T. induction T as [level ty stats on init v m E OK|v m h o v' m' T IH OK E|v m h o v' m' e T IH OK E]; intros L x X.
  - assert (T : traced v m [(v_now v, HMade (if level then init else Num 0) on)]) by (eapply tr_new; eauto). destruct X as [<-|[]]. pose proof (traced_inv _ _ _ T) as I. rewrite <- (mi_val _ _ _ I L). destruct (mi_ok _ _ _ I L); auto.
  - assert (T' : traced v' m' (note_op o (v_now v) h)) by (eapply tr_ok; eauto). pose proof (traced_inv _ _ _ T') as I. destruct (mexec_type o v m h _ _ (traced_inv _ _ _ T) OK E) as [TY LV]. cbn [snd] in TY, LV.
    assert (OLD : In x (levels h) -> veqb x (m_off m') = false /\ fits (m_type m') x = true) by (unfold m_off; rewrite TY; apply IH; congruence).
    assert (NEW : x = value_of (note_op o (v_now v) h) -> veqb x (m_off m') = false /\ fits (m_type m') x = true) by (intros ->; rewrite <- (mi_val _ _ _ I L); destruct (mi_ok _ _ _ I L); auto).
    destruct o; cbn [note_op levels] in X; auto; destruct X as [X|X]; auto.
  - destruct (mexec_type o v m h _ _ (traced_inv _ _ _ T) OK E) as [TY LV]. cbn [snd] in TY, LV. unfold m_off. rewrite TY. apply IH; auto. congruence.
Qed.
Lemma level_at_levels : forall h t x, level_at h t = Some x -> In x (levels h).
Proof. induction h as [|[s e] r IH]; intros t x E; cbn [level_at] in E; [discriminate|]. cbn [levels]. destruct (Qle_bool s t); [destruct (on_of _); [injection E as <-; left; auto|discriminate]|]. destruct (starts e); [discriminate|]. right. eauto. Qed.
Lemma look_entry : forall off l now t x, decr now l -> In (t, x) l -> look off l t = x.
Proof.
  induction l as [|[s y] r IH]; intros now t x D I; [destruct I|]. destruct D as (D1 & D2 & D3). cbn [look]. destruct I as [E|I].
  - injection E as <- <-. assert (Q : Qle_bool s s = true) by (apply Qle_bool_iff; apply Qle_refl). rewrite Q. auto.
  - assert (LT : t < s). { destruct r as [|[s' y'] r']; [destruct I|]. pose proof (decr_all _ _ _ _ D3 I). destruct D3 as (E1 & E2 & E3). destruct I as [X|X]; [injection X as <- <-; auto|]. pose proof (decr_all _ _ _ _ E3 X). lra. }
    assert (Q : Qle_bool s t = false) by (apply Qle_bool_false_iff; auto). rewrite Q. eapply IH; eauto.
Qed.
Lemma look_in : forall off l t, look off l t = off \/ exists s, In (s, look off l t) l.
Proof. induction l as [|[s x] r IH]; intro t; cbn [look]; auto. destruct (Qle_bool s t); [right; exists s; left; auto|]. destruct (IH t) as [E|[u U]]; auto. right. exists u. right. auto. Qed.
(** the numbers that the statistics of a level monitor see are exactly the numbers that the level has (has had) *)
Lemma level_numbers : forall v m h q m' r, traced v m h -> m_stats m = false -> m_level m = true -> on_of h = true -> xweight false true v m = (m', r) -> In q (map numq (fst r)) <-> exists t x, t <= v_now v /\ level_at h t = Some x /\ number x = q.
Proof.
  intros v m h q m' r T S L ON E. pose proof (traced_inv _ _ _ T) as I. pose proof (mi_lev _ _ _ I S L) as LEV. destruct (xweight_cinv v m h false true m' r I (traced_cinv _ _ _ T) S E) as (_ & (_ & _ & G) & _). destruct (G ltac:(left; rewrite (mi_on _ _ _ I); auto)) as [FE _]. cbn [fst snd] in FE.
  assert (FR : fst (xweight0 false true v m) = map fst (pairs (xweight0 false true v m))) by (unfold pairs; symmetry; apply combine_map_fst; apply (minv_even v m h false true I S)).
  rewrite FE, FR, xw_level by auto. split.
  - intro IN. apply in_map_iff in IN. destruct IN as (y & Y1 & Y2). apply in_map_iff in Y2. destruct Y2 as ([y' w] & Y2 & Y3). cbn [fst] in Y2. subst y'. apply in_rev in Y3. apply filter_In in Y3. destruct Y3 as [Y3 Y4]. apply in_map_iff in Y3. destruct Y3 as ([x w'] & Y5 & Y6). cbn [fst snd] in Y5. injection Y5 as <- <-. cbn [fst] in Y4. apply andb_true_iff in Y4. destruct Y4 as [Y4 _]. apply negb_true_iff in Y4. rewrite cvt_off in Y4.
    destruct (level_vals _ _ _ _ _ _ LEV Y6 Y4) as [F C]. rewrite C in Y1. cbn [numq] in Y1. destruct (durs_in _ _ _ _ Y6) as (t & IT). exists t, x. split; [eapply decr_all; eauto; apply (lv_decr _ _ _ LEV)|]. split; auto.
    pose proof (lv_look _ _ _ LEV t) as LK. rewrite (look_entry _ _ _ _ _ (lv_decr _ _ _ LEV) IT) in LK. destruct (level_at h t) as [z|]; [congruence|]. rewrite LK in Y4. unfold m_off in Y4. rewrite veqb_refl in Y4. discriminate.
  - intros (t & x & TN & LA & <-). destruct (levels_ok v m h T L x (level_at_levels _ _ _ LA)) as [O F]. pose proof (lv_look _ _ _ LEV t) as LK. rewrite LA in LK. destruct (look_in (m_off m) (m_e m) t) as [X|(s & X)]; rewrite LK in X; [rewrite X, veqb_refl in O; discriminate|].
    assert (D : exists w, In (x, w) (durs (v_now v) (m_e m))). { clear - X. revert X. generalize (v_now v). induction (m_e m) as [|[a b] l IH]; intros e X; [destruct X|]. cbn [durs]. destruct X as [X|X]; [injection X as -> ->; eexists; left; eauto|]. destruct (IH a X) as (w & W). exists w. right. auto. }
    destruct D as (w & D). destruct (level_vals _ _ _ _ _ _ LEV D O) as [_ C]. apply in_map_iff. exists (cvt (m_type m) true x). rewrite C. split; auto. rewrite <- C. apply in_map_iff. exists (cvt (m_type m) true x, w). split; auto. apply -> in_rev. apply filter_In. split; [apply in_map_iff; exists (x, w); auto|]. cbn [fst]. unfold m_off. rewrite cvt_off. unfold m_off in O. rewrite O. reflexivity.
Qed.
(** minimum() and maximum() of a level monitor that is on: the extremes of the level over the time since the start *)
Theorem C62_minimum : forall v m h, traced v m h -> m_stats m = false -> m_level m = true -> on_of h = true ->
  exists q, snd (minimum false v m) = Some q /\ (exists t x, t <= v_now v /\ level_at h t = Some x /\ number x == q) /\ forall t x, t <= v_now v -> level_at h t = Some x -> q <= number x.
Proof.
  intros v m h T S L ON. unfold minimum. rewrite S. destruct (xweight false true v m) as [m' r] eqn:E. cbn [snd]. pose proof (fun q => level_numbers v m h q m' r T S L ON E) as N. pose proof (min_of_spec (fst r)) as M. destruct (min_of (fst r)) as [q|]; cbn [least_spec] in M.
  - exists q. split; auto. destruct M as [(y & Y1 & Y2) Y3]. split.
    + apply N in Y1. destruct Y1 as (t & x & A & B & C). exists t, x. split; auto. split; auto. rewrite C. auto.
    + intros t x A B. apply Y3. apply N. exists t, x. auto.
  - exfalso. destruct (mi_time _ _ _ (traced_inv _ _ _ T)) as (s & e & rr & HE & SN). assert (X : In (number (value_of h)) (map numq (fst r))). { apply N. exists (v_now v), (value_of h). split; [apply Qle_refl|]. split; auto. subst h. cbn [level_at]. assert (Q : Qle_bool s (v_now v) = true) by (apply Qle_bool_iff; auto). rewrite Q, ON. auto. } rewrite M in X. destruct X.
Qed.
Theorem C62_maximum : forall v m h, traced v m h -> m_stats m = false -> m_level m = true -> on_of h = true ->
  exists q, snd (maximum false v m) = Some q /\ (exists t x, t <= v_now v /\ level_at h t = Some x /\ number x == q) /\ forall t x, t <= v_now v -> level_at h t = Some x -> number x <= q.
Proof.
  intros v m h T S L ON. unfold maximum. rewrite S. destruct (xweight false true v m) as [m' r] eqn:E. cbn [snd]. pose proof (fun q => level_numbers v m h q m' r T S L ON E) as N. pose proof (max_of_spec (fst r)) as M. destruct (max_of (fst r)) as [q|]; cbn [largest_spec] in M.
  - exists q. split; auto. destruct M as [(y & Y1 & Y2) Y3]. split.
    + apply N in Y1. destruct Y1 as (t & x & A & B & C). exists t, x. split; auto. split; auto. rewrite C. auto.
    + intros t x A B. apply Y3. apply N. exists t, x. auto.
  - exfalso. destruct (mi_time _ _ _ (traced_inv _ _ _ T)) as (s & e & rr & HE & SN). assert (X : In (number (value_of h)) (map numq (fst r))). { apply N. exists (v_now v), (value_of h). split; [apply Qle_refl|]. split; auto. subst h. cbn [level_at]. assert (Q : Qle_bool s (v_now v) = true) by (apply Qle_bool_iff; auto). rewrite Q, ON. auto. } rewrite M in X. destruct X.
Qed.
Example C62_case : traced (sv story1) (sm story1) (sh story1) /\ on_of (sh story1) = true /\ snd (minimum false (sv story1) (sm story1)) = Some 3 /\ snd (maximum false (sv story1) (sm story1)) = Some 7.
Proof. split; [apply story_after; vm_compute; reflexivity|]. vm_compute. repeat (split; [reflexivity|]). reflexivity. Qed.
Print Assumptions C37_past.
Print Assumptions C37_now.
Print Assumptions C37_on.
Print Assumptions C37_level_at.
Print Assumptions C37_off_now_refuted.
Print Assumptions C37_rejected_refuted.
Print Assumptions C38_duration.
Print Assumptions C38_duration_ex0.
Print Assumptions C38_value_duration.
Print Assumptions C38_bin_duration.
Print Assumptions C38_partition.
Print Assumptions C38_mean.
Print Assumptions C38_stats_only_refuted.
Print Assumptions C39_running.
Print Assumptions C39_mean.
Print Assumptions C39_variance.
Print Assumptions C39_entries.
Print Assumptions C39_weight.
Print Assumptions C39_zero_weight_refuted.
Print Assumptions C39_level_maximum_refuted.
Print Assumptions C40_weights.
Print Assumptions C40_times.
Print Assumptions C40_entries.
Print Assumptions C40_mean.
Print Assumptions C40_variance.
Print Assumptions C40_value.
Print Assumptions C40_rejected_refuted.
Print Assumptions C40_multiply_refuted.
Print Assumptions C40_x_map_refuted.
Print Assumptions C41_entries.
Print Assumptions C41_weight.
Print Assumptions C41_duration.
Print Assumptions C61_same_values.
Print Assumptions C61_extremes.
Print Assumptions C61_sums.
Print Assumptions C61_off_refuted.
Print Assumptions C62_minimum.
Print Assumptions C62_maximum.
