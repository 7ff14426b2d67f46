(** Property C72: monitors derived from monitors: x_map, multiply, t_multiply. *)
From Coq Require Import QArith Lqa List Bool Arith ZArith Lia Permutation Sorted.
From Verif Require Import Base Util Mon MonSpec MonP MonQ MonR MonT PropUtil PropMon PropMonC.
Import ListNotations.
Open Scope Q_scope.

(** ** Model *)
(** x_map 688-742, with additional monitors; [f] total. The entries of a monitor, with its off value replaced by that of the new one 702-705 *)
Definition any_entries (m : mon) : list (Q * val) := map (fun p => (fst p, if veqb (snd p) (m_off m) then NegInf else snd p)) (rev (m_e m)).
(** 715-718 *)
Definition mapped (f : list val -> val) (cur : list val) : val := if existsb (fun y => veqb y NegInf) cur then NegInf else f cur.
(** 712-724; [e] last first *)
Fixpoint xmap_loop (f : list val -> val) (l : list (nat * (Q * val))) (cur : list val) (e : list (Q * val)) : list (Q * val) :=
  match l with [] => e | (i, (t, x)) :: r => let cur := set_nth i x cur in xmap_loop f r cur (put_last t (mapped f cur) e) end.
Definition x_maps (f : list val -> val) (self : mon) (ms : list mon) (v : menv) : mres mon :=
  if existsb (fun m => negb (Bool.eqb (m_level m) (m_level self))) ms then Mer MType else
  let all := self :: ms in
  let new := fresh (m_level self) TAny v in
  if m_level self then
    let e := xmap_loop f (hmerge fst (map any_entries all)) (repeat NegInf (length all)) [] in
    match rev e with [] => Mer MIndex | (t0, _) :: _ => finish v (set_start t0 (set_e e new)) end
  else finish v (set_e (rev (map (fun p => (fst p, if veqb (snd p) NegInf then NegInf else f [snd p])) (any_entries self))) new).
(** without additional monitors it is the definition that is in Mon.v already *)
Lemma hmerge_one : forall l : list (Q * val), hmerge fst [l] = map (fun p => (0%nat, p)) l.
Proof.
  intros l. pose proof (hmerge_restrict (A := Q * val) fst [l] 0 l eq_refl) as R. assert (I : forall p, In p (hmerge fst [l]) -> fst p = 0%nat) by (intros p P; apply (hmerge_index (A := Q * val) fst) in P; cbn in P; lia).
  revert R I. generalize (hmerge fst [l]). intros k R I. subst l. unfold restrict. induction k as [|[i p] k IH]; cbn; auto. pose proof (I (i, p) (or_introl eq_refl)) as Z. cbn in Z. subst i. cbn. f_equal. apply IH. intros q Q. apply I. right. auto.
Qed.
Lemma xmap_loop_one : forall f l c e, xmap_loop f (map (fun p => (0%nat, p)) l) [c] e = map_level (fun x => f [x]) l e.
Proof. intros f. induction l as [|[t x] r IH]; intros c e; cbn [map xmap_loop map_level set_nth]; auto. rewrite IH. unfold mapped. cbn [existsb]. rewrite orb_false_r. reflexivity. Qed.
Lemma x_maps_one : forall f m v, x_maps f m [] v = x_map (fun x => f [x]) v m.
Proof. intros f m v. unfold x_maps, x_map. cbn [existsb map length repeat]. fold (any_entries m). rewrite hmerge_one, xmap_loop_one. reflexivity. Qed.
(** to_time_unit 1564-1566 and to_years, ..., to_microseconds 1332-1538; [tu] is env._time_unit *)
Definition mto_time_unit (tu : option Q) (u : tunit) (v : menv) (m : mon) : mres mon :=
  if m_stats m then Mer MNotImpl else match tu, tu_lookup (Some u) with Some e, Some q => multiply (q / e) v m | _, _ => Mer MType end.

(** ** Specification *)
(** the values at one time; nothing if one of the monitors is off *)
Fixpoint everyone (l : list (option val)) : option (list val) := match l with [] => Some [] | None :: _ => None | Some x :: r => match everyone r with Some xs => Some (x :: xs) | None => None end end.

(** ** Looking up in entries *)
Fixpoint wd (now : Q) (l : list (Q * val)) : Prop := match l with [] => True | (s, x) :: r => s <= now /\ wd s r end.
Lemma decr_wd : forall l now, decr now l -> wd now l.
Proof. induction l as [|[s x] r IH]; intros now D; [exact Logic.I|]. destruct D as (A & _ & C). split; auto. Qed.
Lemma wd_le : forall l a b, wd a l -> a <= b -> wd b l.
Proof. destruct l as [|[s x] r]; cbn; auto. intros a b [A B] L. split; auto. lra. Qed.
Lemma wd_all : forall l now s x, wd now l -> In (s, x) l -> s <= now.
Proof. induction l as [|[t y] r IH]; intros now s x D I; [destruct I|]. destruct D as [A B]. destruct I as [E|I]; [injection E as <- _; auto|]. pose proof (IH t s x B I). lra. Qed.
Lemma wd_sorted : forall l now, wd now l -> sorted (map fst (rev l)).
Proof.
  induction l as [|[t y] r IH]; intros now D i j I J; [cbn in J; lia|]. destruct D as (A & C). cbn [rev] in *. rewrite map_app in *. cbn [map fst] in *. rewrite app_length in J. cbn [List.length] in J.
  assert (LE : forall k, (k < List.length (map fst (rev r)))%nat -> nth k (map fst (rev r)) 0 <= t).
  { intros k K. pose proof (nth_In _ 0 K) as N. apply in_map_iff in N. destruct N as ([s x] & E & N). rewrite <- E. cbn [fst]. apply in_rev in N. eapply wd_all; eauto. }
  destruct (Nat.eq_dec j (List.length (map fst (rev r)))) as [->|NJ].
  - assert (NT : nth (List.length (map fst (rev r))) (map fst (rev r) ++ [t]) 0 = t) by (rewrite app_nth2, Nat.sub_diag by lia; auto). rewrite NT. destruct (Nat.eq_dec i (List.length (map fst (rev r)))) as [->|NI]; [rewrite NT; apply Qle_refl|]. rewrite app_nth1 by lia. apply LE. lia.
  - rewrite !app_nth1 by lia. apply (IH t C); lia.
Qed.
Lemma look_nth_wd : forall off l now t n, wd now l -> (n <= List.length l)%nat -> (forall i, (i < n)%nat -> nth i (map fst (rev l)) 0 <= t) -> (forall i, (n <= i)%nat -> (i < List.length l)%nat -> t < nth i (map fst (rev l)) 0) ->
  match n with O => look off l t = off | S i => exists s, nth_error (rev l) i = Some (s, look off l t) end.
Proof.
  intros off. induction l as [|[s x] r IH]; intros now t n D N A B; [destruct n; [auto|cbn in N; lia]|]. destruct D as (D1 & D3). cbn [look].
  assert (LEN : List.length (map fst (rev r)) = List.length r) by (rewrite map_length, rev_length; auto).
  assert (LAST : nth (List.length r) (map fst (rev ((s, x) :: r))) 0 = s) by (cbn [rev]; rewrite map_app; cbn [map fst]; rewrite app_nth2, LEN, Nat.sub_diag by lia; auto).
  destruct (Qle_bool s t) eqn:Q.
  - apply Qle_bool_iff in Q. assert (n = S (List.length r)). { destruct (Nat.eq_dec n (S (List.length r))); auto. cbn [List.length] in N. pose proof (B (List.length r) ltac:(lia) ltac:(cbn; lia)) as X. rewrite LAST in X. lra. } subst n.
    exists s. cbn [rev]. rewrite nth_error_app2 by (rewrite rev_length; lia). rewrite rev_length, Nat.sub_diag. auto.
  - apply Qle_bool_false_iff in Q. assert (NR : (n <= List.length r)%nat). { destruct (Nat.eq_dec n (S (List.length r))); [subst|cbn [List.length] in N; lia]. pose proof (A (List.length r) ltac:(lia)) as X. rewrite LAST in X. lra. }
    assert (X := IH s t n D3 NR). destruct n as [|i].
    + apply X; [intros; lia|]. intros i I1 I2. pose proof (B i I1 ltac:(cbn; lia)) as Y. cbn [rev] in Y. rewrite map_app, app_nth1 in Y by lia. auto.
    + cbn [rev]. rewrite nth_error_app1 by (rewrite rev_length; lia). apply X.
      * intros k K. pose proof (A k K) as Y. cbn [rev] in Y. rewrite map_app, app_nth1 in Y by lia. auto.
      * intros k K1 K2. pose proof (B k K1 ltac:(cbn; lia)) as Y. cbn [rev] in Y. rewrite map_app, app_nth1 in Y by lia. auto.
Qed.
Lemma call_wd : forall v m t b, m_stats m = false -> m_level m = true -> wd b (m_e m) -> m_e m <> [] -> ~ t + v_off v == v_now v -> call (Some t) v m = Mok (look (m_off m) (m_e m) (t + v_off v)).
Proof.
  intros v m t b S L D NE0 NE. unfold call. rewrite L, S. cbn [negb]. destruct (Qeq_bool (t + v_off v) (v_now v)) eqn:Q; [apply Qeqb_true in Q; tauto|]. clear Q NE. set (u := t + v_off v). clearbody u.
  destruct (C54_searchsorted (map fst (rev (m_e m))) u (wd_sorted _ _ D)) as [_ (n & E & LN & A & B)]. cbn [searchsorted] in E. unfold bisect_right in E.
  assert (LL : List.length (map fst (rev (m_e m))) = List.length (m_e m)) by (rewrite map_length, rev_length; auto). rewrite LL in *. rewrite E.
  pose proof (look_nth_wd (m_off m) _ _ u n D LN A B) as X. destruct (m_e m) as [|p0 r0] eqn:HD; [tauto|]. rewrite <- HD in *. destruct (rev (m_e m)) as [|[t0 x0] rr] eqn:R; [apply (f_equal (@List.length _)) in R; rewrite rev_length, HD in R; cbn in R; lia|].
  destruct (Qltb u t0) eqn:U.
  - apply Qltb_iff in U. destruct n as [|i]; [rewrite X; auto|]. pose proof (A 0%nat ltac:(lia)) as Y. cbn in Y. lra.
  - apply Qltb_false_iff in U. destruct n as [|i].
    + pose proof (B 0%nat ltac:(lia)) as Y. cbn in Y. rewrite HD in Y. cbn in Y. specialize (Y ltac:(lia)). lra.
    + destruct X as (s & ->). auto.
Qed.

(** ** x_map *)
Lemma xmap_loop_spec : forall f n L P cur e, (0 < n)%nat ->
  cur = cur_of TFloat n P -> StronglySorted (fun a b : nat * (Q * val) => fst (snd a) <= fst (snd b)) (P ++ L) ->
  (forall t, look NegInf e t = mapped f (cur_of TFloat n (early t P))) -> (forall s, (forall p, In p P -> fst (snd p) <= s) -> decr s e) ->
  let e' := xmap_loop f L cur e in
  (forall t, look NegInf e' t = mapped f (cur_of TFloat n (early t (P ++ L)))) /\ (forall s, (forall p, In p (P ++ L) -> fst (snd p) <= s) -> decr s e') /\ (e <> [] \/ L <> [] -> e' <> []).
Proof.
  intros f n L. induction L as [|[i [t x]] r IH]; intros P cur e NP C S LK D; cbn [xmap_loop].
  - rewrite app_nil_r. split; auto. split; auto. intros [?|?]; auto.
  - assert (EQ : P ++ (i, (t, x)) :: r = (P ++ [(i, (t, x))]) ++ r) by (rewrite <- app_assoc; auto). rewrite EQ in S |- *.
    assert (PT : forall p, In p P -> fst (snd p) <= t). { intros p I. clear - S I. rewrite <- app_assoc in S. induction P as [|q P IH]; [destruct I|]. inversion S as [|? ? S1 F]. subst. destruct I as [<-|I]; [rewrite Forall_forall in F; apply (F (i, (t, x))); apply in_or_app; right; left; auto|auto]. }
    pose proof (D t PT) as DT. assert (CE : set_nth i x cur = cur_of TFloat n (P ++ [(i, (t, x))])) by (rewrite cur_snoc; subst cur; auto). rewrite CE.
    set (e1 := put_last t (mapped f (cur_of TFloat n (P ++ [(i, (t, x))]))) e) in *.
    assert (A1 : forall u, look NegInf e1 u = mapped f (cur_of TFloat n (early u (P ++ [(i, (t, x))])))).
    { intro u. unfold e1. rewrite put_look by auto. unfold early. rewrite filter_app. cbn [filter fst snd]. destruct (Qle_bool t u) eqn:U.
      * apply Qle_bool_iff in U. rewrite filter_all; auto. intros p I. apply Qle_bool_iff. apply PT in I. lra.
      * rewrite app_nil_r. apply LK. }
    assert (B1 : forall s, (forall p, In p (P ++ [(i, (t, x))]) -> fst (snd p) <= s) -> decr s e1).
    { intros s SP. assert (TS : t <= s) by (apply (SP (i, (t, x))); apply in_or_app; right; left; auto). eapply decr_le; [apply put_decr; exact DT|auto]. }
    destruct (IH (P ++ [(i, (t, x))]) _ _ NP eq_refl S A1 B1) as (A & B & G).
    split; auto. split; auto. intros _. apply G. left. unfold e1. destruct (put_head t (mapped f (cur_of TFloat n (P ++ [(i, (t, x))]))) e) as (s & r0 & ->). discriminate.
Qed.
(** a monitor, read with off as -inf *)
Lemma look_any : forall v m h u, traced v m h -> m_stats m = false -> m_level m = true -> lastval NegInf (until u (any_entries m)) = match level_at h u with Some x => x | None => NegInf end.
Proof.
  intros v m h u T S L. pose proof (mi_lev _ _ _ (traced_inv _ _ _ T) S L) as V. pose proof (lv_look _ _ _ V u) as LK. unfold any_entries. rewrite map_rev.
  set (c := fun p : Q * val => (fst p, if veqb (snd p) (m_off m) then NegInf else snd p)).
  assert (D : decr (v_now v) (map c (m_e m))). { pose proof (lv_decr _ _ _ V) as D. revert D. generalize (v_now v). generalize (m_e m). clear. induction l as [|[s x] r IH]; intros now D; [exact Logic.I|]. destruct D as (A & B & C). cbn. split; auto. split; auto. destruct r as [|[s' x'] r]; auto. }
  rewrite (look_until NegInf _ _ u D). assert (X : look NegInf (map c (m_e m)) u = if veqb (look (m_off m) (m_e m) u) (m_off m) then NegInf else look (m_off m) (m_e m) u).
  { clear. induction (m_e m) as [|[s x] r IH]; cbn; [rewrite veqb_refl; auto|]. destruct (Qle_bool s u); auto. }
  rewrite X, LK. destruct (level_at h u) as [x|] eqn:LA; [|rewrite veqb_refl; auto]. destruct (level_ok v m h u x T L LA) as [_ V2]. rewrite L in V2. rewrite V2. auto.
Qed.
Lemma not_neginf : forall v m h u x, traced v m h -> m_level m = true -> level_at h u = Some x -> veqb x NegInf = false.
Proof. intros v m h u x T L LA. destruct (level_ok v m h u x T L LA) as [F V]. rewrite L in V. unfold m_off in V. destruct (m_type m) as [| |lo hi o], x; cbn in *; auto; discriminate. Qed.
Lemma any_sorted : forall v m h, traced v m h -> m_stats m = false -> m_level m = true -> StronglySorted (fun a b : Q * val => fst a <= fst b) (any_entries m) /\ any_entries m <> [] /\ Forall (fun p => fst p <= v_now v) (any_entries m).
Proof.
  intros v m h T S L. pose proof (mi_lev _ _ _ (traced_inv _ _ _ T) S L) as V. unfold any_entries. split; [|split].
  - pose proof (decr_ascending _ _ (lv_decr _ _ _ V)) as A. revert A. generalize (rev (m_e m)). clear. induction l as [|p r IH]; intro A; cbn; constructor; inversion A; subst; auto. rewrite Forall_forall in *. intros q I. apply in_map_iff in I. destruct I as (q' & <- & I). cbn. auto.
  - destruct (lv_head _ _ _ V) as (s & r & E). intro Z. apply (f_equal (@length _)) in Z. rewrite map_length, rev_length, E in Z. discriminate.
  - apply Forall_forall. intros p I. apply in_map_iff in I. destruct I as ([s x] & <- & I). apply in_rev in I. cbn. eapply decr_all; [apply (lv_decr _ _ _ V)|exact I].
Qed.
(** x_map makes a monitor, that shows at any time before now what [f] makes of the levels of all the monitors at that time, and nothing when one of them is off, or from now on; this does not change any more when time goes on *)
Theorem C72_x_map : forall f v self ms hs, merging v true (self :: ms) hs -> exists m', x_maps f self ms v = Mok m' /\ m_level m' = true /\
  forall v' t, ~ t + v_off v' == v_now v' -> call (Some t) v' m' = Mok (if Qltb (t + v_off v') (v_now v) then match everyone (map (fun h => level_at h (t + v_off v')) hs) with Some xs => f xs | None => m_off m' end else m_off m').
Proof.
  intros f v self ms hs M. destruct (merging_checks _ _ _ _ _ M) as (C1 & C2 & C3). unfold x_maps. rewrite C2, C3. set (all := self :: ms) in *.
  set (n := length all) in *. set (L := hmerge fst (map any_entries all)) in *. set (e := xmap_loop f L (repeat NegInf n) []).
  assert (NP : (0 < n)%nat) by (unfold n, all; cbn; lia).
  assert (SL : StronglySorted (fun a b : nat * (Q * val) => fst (snd a) <= fst (snd b)) L).
  { apply (sorted_map_snd _ _ (fun a b : Q * val => fst a <= fst b)). apply (hmerge_sorted (A := Q * val) fst). apply Forall_forall. intros l I. apply in_map_iff in I. destruct I as (m & <- & I). destruct (merging_in _ _ _ _ m M I) as (h & A & B & C). eapply any_sorted; eauto. }
  assert (LN : forall p, In p L -> fst (snd p) <= v_now v).
  { intros [i [s x]] I. cbn. assert (J : In (s, x) (concat (map any_entries all))) by (eapply Permutation_in; [apply (hmerge_perm (A := Q * val) fst)|]; apply in_map_iff; exists (i, (s, x)); split; auto). apply in_concat in J. destruct J as (l & J1 & J2). apply in_map_iff in J1. destruct J1 as (m & <- & J1). destruct (merging_in _ _ _ _ m M J1) as (h & A & B & C). destruct (any_sorted _ _ _ A B C) as (_ & _ & F). rewrite Forall_forall in F. apply (F _ J2). }
  destruct (xmap_loop_spec f n L [] (repeat NegInf n) [] NP) as (R1 & R2 & R3); auto.
  { intros. exact Logic.I. }
  cbn [app] in R1, R2, R3. fold e in R1, R2, R3. assert (NL : L <> []). { intro Z. destruct (merging_in _ _ _ _ self M (or_introl eq_refl)) as (h & A & B & C). destruct (any_sorted _ _ _ A B C) as (_ & NE & _). pose proof (hmerge_restrict (A := Q * val) fst (map any_entries all) 0 (any_entries self) eq_refl) as RR. fold L in RR. rewrite Z in RR. cbn in RR. congruence. }
  specialize (R3 (or_intror NL)). specialize (R2 _ LN). clearbody e. destruct (rev e) as [|[t0 x0] rr] eqn:RE; [exfalso; apply R3; rewrite <- (rev_involutive e), RE; auto|].
  destruct (fresh_level TAny v) as (F1 & F2 & F3 & F4 & F5 & F6).
  assert (EX : exists m', finish v (set_start t0 (set_e e (fresh true TAny v))) = Mok m') by (eexists; apply finish_level; cbn [set_start set_e m_stats m_gen m_level m_e]; auto).
  destruct EX as [m' E]. exists m'. split; auto. destruct (finish_fields v (fresh true TAny v) t0 e m' F1 F2 F3 R3 E) as (TY & SS & LL & ME & _). split; auto. intros v' t NN. clear E.
  assert (OFF' : m_off m' = NegInf) by (unfold m_off; rewrite TY, F4; auto). assert (ME' : m_e m' = put_last (v_now v) NegInf e) by (rewrite ME; unfold m_off; rewrite F4; auto). clear ME F1 F2 F3 F4 F5 F6 TY.
  rewrite (call_wd v' m' t (v_now v) SS LL); [|rewrite ME'; apply decr_wd, put_decr; exact R2|rewrite ME'; destruct (put_head (v_now v) NegInf e) as (s & r & ->); discriminate|auto].
  f_equal. set (u := t + v_off v') in *. rewrite OFF', ME', put_look by auto. unfold Qltb. destruct (Qle_bool (v_now v) u); cbn [negb]; auto. rewrite R1.
  assert (CUR : cur_of TFloat n (early u L) = map (fun h => match level_at h u with Some x => x | None => NegInf end) hs).
  { assert (LH : length hs = n). { unfold n. clear - M. clearbody all. induction M; cbn; auto. }
    apply nth_ext with (d := Num 0) (d' := Num 0); [rewrite cur_length, map_length; auto|]. intros i I. rewrite cur_length in I. rewrite cur_nth; auto.
    - rewrite restrict_early. destruct (nth_error all i) as [m|] eqn:NI; [|apply nth_error_None in NI; unfold n in I; lia]. unfold L. rewrite (hmerge_restrict (A := Q * val) fst (map any_entries all) i (any_entries m)) by (rewrite nth_error_map, NI; auto).
      destruct (nth_error hs i) as [h|] eqn:NH; [|apply nth_error_None in NH; lia]. assert (MH : traced v m h /\ m_stats m = false /\ m_level m = true). { clear - M NI NH. clearbody all. revert i NI NH. induction M as [|a b l k X F IH]; intros [|i] NI NH; cbn in *; try discriminate; [injection NI as <-; injection NH as <-; auto|eauto]. }
      destruct MH as (A & B & C). cbn [conv ty_any off_of]. unfold conv. cbn [ty_any]. rewrite (look_any v m h u A B C). erewrite nth_error_nth; [reflexivity|]. rewrite nth_error_map, NH. auto.
    - intros p P. apply filter_In in P. destruct P as [P _]. apply (hmerge_index (A := Q * val) fst) in P. rewrite map_length in P. auto. }
  rewrite CUR. clear - M. clearbody all. unfold mapped. assert (G : match everyone (map (fun h => level_at h u) hs) with Some xs => existsb (fun y => veqb y NegInf) (map (fun h => match level_at h u with Some x => x | None => NegInf end) hs) = false /\ map (fun h => match level_at h u with Some x => x | None => NegInf end) hs = xs
     | None => existsb (fun y => veqb y NegInf) (map (fun h => match level_at h u with Some x => x | None => NegInf end) hs) = true end).
  { induction M as [|m h l k (A & B & C) F IH]; cbn [map everyone existsb]; auto. destruct (level_at h u) as [x|] eqn:LA; auto. rewrite (not_neginf v m h u x A C LA). cbn [orb]. destruct (everyone (map (fun h0 => level_at h0 u) k)); auto. destruct IH as [-> <-]. auto. }
  destruct (everyone (map (fun h => level_at h u) hs)) as [xs|]; [destruct G as [-> ->]; auto|rewrite G; auto].
Qed.
(** *** statistics of a level monitor that is not any more tallied *)
Lemma level_stat : forall v m ex0 (I : (val -> Q) -> Q), m_level m = true -> m_stats m = false -> m_cache m = [] ->
  (forall x w, In (x, w) (durs (v_now v) (m_e m)) -> veqb x (m_off m) = false -> cvt (m_type m) true x = Num (number x)) -> (forall g, gsum (m_off m) g (durs (v_now v) (m_e m)) == I g) ->
  (exists m1 r, mean ex0 v m = (m1, Mok r) /\ mean_spec (fun g => I (fun x => if ex0 && zero x then 0 else g (number x))) r) /\
  (exists m1 r, var ex0 v m = (m1, Mok r) /\ var_spec (fun g => I (fun x => if ex0 && zero x then 0 else g (number x))) r) /\
  (exists m1 d, duration ex0 v m = (m1, Mok d) /\ d == I (fun x => if ex0 && zero x then 0 else 1)).
Proof.
  intros v m ex0 I L S C PV GI. assert (X : exists m', xweight ex0 true v m = (m', xweight0 ex0 true v m)) by (unfold xweight; rewrite C; cbn [cget]; eauto). destruct X as [m' X].
  assert (EV : even (xweight0 ex0 true v m)) by (apply xw_even; congruence).
  assert (A : forall g, total_of (fun x => g (numq x)) (pairs (xweight0 ex0 true v m)) == I (fun x => if ex0 && zero x then 0 else g (number x))).
  { intro g. rewrite xw_total by auto. rewrite <- GI. apply gsum_ext. intros x w N O. rewrite (PV x w N O), keep_num. cbn [numq]. destruct (ex0 && zero x); reflexivity. }
  unfold mean, var, duration, sys_weight. rewrite S, L, X. split; [|split]; (eexists _, _; split; [reflexivity|]); [apply mean_of_spec; auto|apply var_of_spec; auto|]. rewrite (sumQ_total _ EV), (A (fun _ => 1)). reflexivity.
Qed.
(** *** x_map of one level monitor: statistics *)
Definition shown (f : val -> val) (m : mon) (p : Q * val) : Q * val := (fst p, if veqb (snd p) (m_off m) then NegInf else f (snd p)).
Lemma map_level_app : forall f a b e, map_level f (a ++ b) e = map_level f b (map_level f a e).
Proof. intros f a. induction a as [|[t x] r IH]; intros b e; cbn [app map_level]; auto. Qed.
Lemma map_level_entries : forall f m l now, decr now l -> (forall t x, In (t, x) l -> veqb x (m_off m) = false -> veqb x NegInf = false) ->
  map_level f (map (fun p => (fst p, if veqb (snd p) (m_off m) then NegInf else snd p)) (rev l)) [] = map (shown f m) l.
Proof.
  intros f m. induction l as [|[t x] r IH]; intros now D V; [reflexivity|]. destruct D as (A & B & C). cbn [rev]. rewrite map_app, map_level_app. rewrite (IH t C) by (intros s y I; apply (V s y); right; auto). cbn [map map_level fst snd].
  assert (E : (if veqb (if veqb x (m_off m) then NegInf else x) NegInf then NegInf else f (if veqb x (m_off m) then NegInf else x)) = (if veqb x (m_off m) then NegInf else f x)).
  { destruct (veqb x (m_off m)) eqn:O; [reflexivity|]. rewrite (V t x (or_introl eq_refl) O). auto. }
  rewrite E. unfold shown at 2. cbn [fst snd]. destruct r as [|[s y] r]; [reflexivity|]. cbn [map put_last shown fst snd]. destruct (Qeq_bool s t) eqn:Z; [apply Qeqb_true in Z; lra|]. reflexivity.
Qed.
Lemma shown_decr : forall f m l now, decr now l -> decr now (map (shown f m) l).
Proof. intros f m. induction l as [|[s x] r IH]; intros now D; [exact Logic.I|]. destruct D as (A & B & C). cbn. split; auto. split; auto. destruct r as [|[s' x'] r]; auto. Qed.
Lemma shown_sum : forall f m g l e, (forall x, veqb (f x) NegInf = false) -> gsum NegInf g (durs e (map (shown f m) l)) == gsum (m_off m) (fun x => g (f x)) (durs e l).
Proof.
  intros f m g l e N. revert e. induction l as [|[t x] r IH]; intro e; [reflexivity|]. cbn [map durs shown fst snd]. unfold gsum in *. cbn [filter fst]. destruct (veqb x (m_off m)); cbn [veqb negb].
  - apply IH.
  - rewrite N. cbn [negb total_of]. fold (shown f m). rewrite IH. reflexivity.
Qed.
(** the mean, the variance and the duration are those of the mapped level, over the time that the monitor was on; also when time goes on *)
Theorem C72_x_map_statistics : forall f v m h, traced v m h -> m_stats m = false -> m_level m = true -> (forall x, veqb (f x) NegInf = false) -> exists m', x_map f v m = Mok m' /\ forall v',
  (exists m1 r, mean false v' m' = (m1, Mok r) /\ mean_spec (fun g => integral (fun x => g (number (f x))) h (v_now v)) r) /\
  (exists m1 r, var false v' m' = (m1, Mok r) /\ var_spec (fun g => integral (fun x => g (number (f x))) h (v_now v)) r) /\
  (exists m1 d, duration false v' m' = (m1, Mok d) /\ d == on_time h (v_now v)).
Proof.
  intros f v m h T S L N. pose proof (mi_lev _ _ _ (traced_inv _ _ _ T) S L) as V. unfold x_map. rewrite L.
  assert (VA : forall t x, In (t, x) (m_e m) -> veqb x (m_off m) = false -> veqb x NegInf = false).
  { intros t x I O. destruct (lv_vals _ _ _ V t x I) as [->|[F _]]; [rewrite veqb_refl in O; discriminate|]. unfold m_off in O. destruct (m_type m), x; cbn in *; auto; discriminate. }
  rewrite (map_level_entries f m (m_e m) (v_now v) (lv_decr _ _ _ V) VA). set (e := map (shown f m) (m_e m)). pose proof (shown_decr f m _ _ (lv_decr _ _ _ V)) as D. fold e in D.
  assert (NE : e <> []) by (destruct (lv_head _ _ _ V) as (s & r & E); unfold e; rewrite E; discriminate). destruct (rev e) as [|[t0 x0] rr] eqn:RE; [exfalso; apply NE; rewrite <- (rev_involutive e), RE; auto|].
  destruct (fresh_level TAny v) as (F1 & F2 & F3 & F4 & F5 & F6).
  assert (EX : exists m', finish v (set_start t0 (set_e e (fresh true TAny v))) = Mok m') by (eexists; apply finish_level; cbn [set_start set_e m_stats m_gen m_level m_e]; auto).
  destruct EX as [m' E]. exists m'. split; auto. destruct (finish_fields v (fresh true TAny v) t0 e m' F1 F2 F3 NE E) as (TY & SS & LL & ME & CA & _). intro v'. clear E.
  assert (OFF' : m_off m' = NegInf) by (unfold m_off; rewrite TY, F4; auto). assert (ME' : m_e m' = put_last (v_now v) NegInf e) by (rewrite ME; unfold m_off; rewrite F4; auto). rewrite F6 in CA. rewrite F4 in TY.
  destruct (level_stat v' m' false (fun g => integral (fun x => g (f x)) h (v_now v)) LL SS CA) as (A & B & C).
  - intros x w I O. rewrite TY. apply val_num; auto. intros ->. rewrite OFF' in O. discriminate.
  - intro g. rewrite ME', OFF', total_filter_put by auto. cbn [veqb]. unfold e. rewrite shown_sum by auto. rewrite <- (lv_int _ _ _ V). ring.
  - split; [exact A|split; [exact B|]]. destruct C as (m1 & d & C1 & C2). exists m1, d. split; auto.
Qed.

(** ** Monitors that are not level monitors *)
Definition with_value (f : val -> val) (p : Q * val * Q) : Q * val := (fst (fst p), f (snd (fst p))).
Lemma plain_statistics : forall v m l, m_level m = false -> m_stats m = false -> m_cache m = [] -> m_w m = WNo -> m_e m = map fst l -> Forall (fun p => snd p = 1) l -> (forall t x w, In (t, x, w) l -> fits (m_type m) x = true /\ x <> NegInf) ->
  forall ex0, statistics ex0 v m (data ex0 (told l)).
Proof.
  intros v m l L S C W E O F ex0. apply (pla_statistics v m (told l) ex0); auto. split; rewrite ?told_seen; auto. rewrite W. cbn. eapply Forall_impl; [|exact O]. intros p ->. reflexivity.
Qed.
Lemma data_told : forall l, data false (told l) = rev (map (fun p => (number (snd (fst p)), snd p)) l).
Proof. intros l. rewrite data_seen, told_seen. cbn [andb negb]. rewrite <- map_rev. f_equal. apply filter_all. auto. Qed.
Lemma data_plain : forall h, data false h = map (fun p => (number (snd (fst p)), snd p)) (rev (seen h)).
Proof. intros h. rewrite data_seen. cbn [andb negb]. f_equal. apply filter_all. auto. Qed.
(** x_map: every value mapped, with its time (as long as no value is the one that means off for the type of the monitor); the statistics are those of the mapped values, each with weight 1 *)
Theorem C72_x_map_plain : forall f v m h, traced v m h -> m_stats m = false -> m_level m = false -> (forall x, f x <> NegInf) -> (forall t x w, In (t, x, w) (seen h) -> veqb x (m_off m) = false) ->
  exists m', x_map f v m = Mok m' /\ rev (m_e m') = map (with_value f) (rev (seen h)) /\ forall v', statistics false v' m' (map (fun p => (number (f (snd (fst p))), 1)) (rev (seen h))).
Proof.
  intros f v m h T S L N NO. pose proof (mi_pla _ _ _ (traced_inv _ _ _ T) S L) as [P1 P2 P3]. unfold x_map. rewrite L, finish_plain by reflexivity. eexists. split; [reflexivity|].
  assert (E : rev (map (fun p => (fst p, if veqb (snd p) NegInf then NegInf else f (snd p))) (map (fun p => (fst p, if veqb (snd p) (m_off m) then NegInf else snd p)) (rev (m_e m)))) = map (with_value f) (seen h)).
  { rewrite P1, !map_rev, rev_involutive, !map_map. apply map_ext_in. intros [[t x] w] I. cbn [fst snd]. unfold with_value. cbn [fst snd]. rewrite (NO t x w I). destruct (P3 t x w I) as [_ X]. destruct x as [q| |i o]; cbn [veqb]; auto. congruence. }
  cbn [set_gen set_on set_e m_e]. rewrite E. split; [rewrite <- map_rev; reflexivity|]. intro v'. set (l := map (fun p => (with_value f p, 1)) (seen h)).
  assert (D : data false (told l) = map (fun p => (number (f (snd (fst p))), 1)) (rev (seen h))) by (rewrite data_told, map_rev; unfold l; rewrite map_map; reflexivity). rewrite <- D.
  apply plain_statistics; try reflexivity.
  - cbn. unfold l. rewrite map_map. reflexivity.
  - unfold l. apply Forall_forall. intros p I. apply in_map_iff in I. destruct I as (q & <- & _). reflexivity.
  - intros t x w I. unfold l in I. apply in_map_iff in I. destruct I as (q & E1 & _). injection E1 as _ <- _. split; [reflexivity|apply N].
Qed.
(** multiply: every value multiplied, with its time; the statistics are those of the multiplied values, each with weight 1 *)
Theorem C72_multiply : forall k v m h, traced v m h -> m_stats m = false -> m_level m = false -> m_type m = TFloat -> exists m', multiply k v m = Mok m' /\ rev (m_e m') = map (with_value (fun x => Num (number x * k))) (rev (seen h)) /\
  forall v', statistics false v' m' (map (fun p => (number (snd (fst p)) * k, 1)) (rev (seen h))).
Proof.
  intros k v m h T S L TY. pose proof (mi_pla _ _ _ (traced_inv _ _ _ T) S L) as [P1 P2 P3]. unfold multiply. rewrite S, L, TY. eexists. split; [reflexivity|].
  assert (E : map (fun p => (fst p, Num (numq (snd p) * k))) (m_e m) = map (with_value (fun x => Num (number x * k))) (seen h)).
  { rewrite P1, map_map. apply map_ext_in. intros [[t x] w] I. cbn [fst snd]. unfold with_value. cbn [fst snd]. destruct (P3 t x w I) as [F X]. rewrite TY in F. destruct x as [q| |i o]; [reflexivity|congruence|discriminate]. }
  rewrite E. set (l := map (fun p => (with_value (fun x => Num (number x * k)) p, 1)) (seen h)).
  assert (ME : forall e c, m_e (set_e e c) = e) by reflexivity. split; [rewrite ME, <- map_rev; reflexivity|]. intro v'.
  assert (D : data false (told l) = map (fun p => (number (snd (fst p)) * k, 1)) (rev (seen h))) by (rewrite data_told, map_rev; unfold l; rewrite map_map; reflexivity). rewrite <- D.
  apply plain_statistics; try reflexivity.
  - rewrite ME. unfold l. rewrite map_map. reflexivity.
  - unfold l. apply Forall_forall. intros p I. apply in_map_iff in I. destruct I as (q & <- & _). reflexivity.
  - intros t x w I. unfold l in I. apply in_map_iff in I. destruct I as (q & E1 & _). injection E1 as _ <- _. split; [reflexivity|discriminate].
Qed.
(** to_years, ..., to_time_unit: every value is converted as Environment.to_time_unit does *)
Theorem C72_to_time_unit : forall tu u v m h, traced v m h -> m_stats m = false -> m_level m = false -> m_type m = TFloat -> exists m', mto_time_unit (Some tu) u v m = Mok m' /\
  Forall2 (fun p q => fst q = fst (fst p) /\ exists y z, to_unit (Some tu) (Some u) (number (snd (fst p))) = UOk y /\ snd q = Num z /\ z == y) (rev (seen h)) (rev (m_e m')).
Proof.
  intros tu u v m h T S L TY. unfold mto_time_unit. rewrite S. assert (LK : exists k, tu_lookup (Some u) = Some k) by (destruct u; eexists; reflexivity). destruct LK as [k LK]. rewrite LK.
  destruct (C72_multiply (k / tu) v m h T S L TY) as (m' & E & ME & _). exists m'. split; auto. rewrite ME. clear ME. induction (rev (seen h)) as [|p r IH]; cbn [map]; constructor; auto. unfold with_value. cbn [fst snd]. split; auto.
  unfold to_unit. rewrite LK. do 2 eexists. split; [reflexivity|]. split; [reflexivity|]. unfold Qdiv. ring.
Qed.

(** ** t_multiply *)
Definition stretched (f : Q) (p : Q * val) : Q * val := (fst p * f, snd p).
Lemma stretched_wd : forall f l now, 0 < f -> decr now l -> wd (now * f) (map (stretched f) l).
Proof. intros f. induction l as [|[s x] r IH]; intros now P D; [exact Logic.I|]. destruct D as (A & B & C). cbn. split; [apply Qmult_le_compat_r; lra|]. apply IH; auto. Qed.
Lemma stretched_look : forall f off l t u, 0 < f -> t == u * f -> look off (map (stretched f) l) t = look off l u.
Proof.
  intros f off l t u P E. induction l as [|[s x] r IH]; cbn; auto. assert (X : Qle_bool (s * f) t = Qle_bool s u).
  { destruct (Qle_bool s u) eqn:Q; [apply Qle_bool_iff in Q; apply Qle_bool_iff; rewrite E; apply Qmult_le_compat_r; lra|apply Qle_bool_false_iff in Q; apply Qle_bool_false_iff; rewrite E; apply Qmult_lt_compat_r; lra]. }
  rewrite X, IH. auto.
Qed.
Lemma stretched_sum : forall f off g l e, gsum off g (durs (e * f) (map (stretched f) l)) == f * gsum off g (durs e l).
Proof.
  intros f off g. induction l as [|[t x] r IH]; intro e; [unfold gsum; cbn; ring|]. cbn [map durs stretched fst snd]. unfold gsum in *. cbn [filter fst]. destruct (veqb x off); cbn [negb].
  - apply IH.
  - cbn [total_of]. fold (stretched f). rewrite IH. ring.
Qed.
Lemma t_multiply_entries : forall f v m h, traced v m h -> m_stats m = false -> m_level m = true -> 0 < f -> (forall s x, In (s, x) (m_e m) -> ~ s * f == v_now v) ->
  exists m', t_multiply f v m = Mok m' /\ m_e m' = (v_now v * f, m_off m) :: map (stretched f) (m_e m) /\ m_type m' = m_type m /\ m_level m' = true /\ m_stats m' = false /\ m_cache m' = [] /\ m_start m' = m_start m * f.
Proof.
  intros f v m h T S L P N. pose proof (mi_lev _ _ _ (traced_inv _ _ _ T) S L) as V. unfold t_multiply. rewrite L. cbn [negb]. assert (F0 : Qle_bool f 0 = false) by (apply Qle_bool_false_iff; auto). rewrite F0. fold (stretched f).
  destruct (fresh_level (m_type m) v) as (F1 & F2 & F3 & F4 & F5 & F6). revert F1 F2 F3 F4 F5 F6. generalize (fresh true (m_type m) v). intros new F1 F2 F3 F4 F5 F6.
  destruct (lv_head _ _ _ V) as (s & r & HD). set (x := if m_on m then m_tally m else m_off m) in *. pose proof (N s x ltac:(rewrite HD; left; auto)) as NS. rewrite HD. cbn [map].
  destruct new as [lv ty st ge on ta tt0 sta e w ttm a0 a1 ca]. cbn [m_stats m_gen m_level m_type m_w m_cache] in F1, F2, F3, F4, F5, F6. subst lv ty st ge w ca.
  unfold monitor. cbn [set_start set_e set_on m_stats andb m_level]. unfold tally_off. cbn [m_gen set_on set_start set_e m_e stretched fst snd put_last].
  destruct (Qeq_bool (s * f) (v_now v)) eqn:Q; [apply Qeqb_true in Q; tauto|]. eexists. split; [reflexivity|]. repeat split; auto.
Qed.
(** t_multiply, for a factor f > 0, when there is no entry at just now / f: what was shown at u is shown at u * f, and nothing after now * f *)
Theorem C72_t_multiply : forall f v m h, traced v m h -> m_stats m = false -> m_level m = true -> 0 < f -> (forall s x, In (s, x) (m_e m) -> ~ s * f == v_now v) -> exists m', t_multiply f v m = Mok m' /\
  forall v' t u, t + v_off v' == u * f -> ~ t + v_off v' == v_now v' -> call (Some t) v' m' = Mok (match (if Qltb u (v_now v) then level_at h u else None) with Some x => x | None => m_off m' end).
Proof.
  intros f v m h T S L P N. destruct (t_multiply_entries f v m h T S L P N) as (m' & E & ME & TY & LL & SS & CA & ST). exists m'. split; auto. intros v' t u EQ NN. pose proof (mi_lev _ _ _ (traced_inv _ _ _ T) S L) as V.
  assert (OF : m_off m' = m_off m) by (unfold m_off; rewrite TY; auto). rewrite (call_wd v' m' t (v_now v * f) SS LL); auto.
  - f_equal. rewrite ME, OF. cbn [look]. assert (X : Qle_bool (v_now v * f) (t + v_off v') = Qle_bool (v_now v) u).
    { destruct (Qle_bool (v_now v) u) eqn:Q; [apply Qle_bool_iff in Q; apply Qle_bool_iff; rewrite EQ; apply Qmult_le_compat_r; lra|apply Qle_bool_false_iff in Q; apply Qle_bool_false_iff; rewrite EQ; apply Qmult_lt_compat_r; lra]. }
    rewrite X. unfold Qltb. destruct (Qle_bool (v_now v) u); cbn [negb]; auto. rewrite (stretched_look f _ _ _ u P EQ). apply (lv_look _ _ _ V).
  - rewrite ME. cbn. split; [lra|]. apply stretched_wd; auto. apply (lv_decr _ _ _ V).
  - rewrite ME. discriminate.
Qed.
(** so mean and variance are the same, and durations are multiplied *)
Lemma mean_scale : forall k ar r, 0 < k -> mean_spec (fun g => k * ar g) r -> mean_spec ar r.
Proof. intros k ar [mu|] P; cbn. - intros [A B]. split; [intro Z; apply A; rewrite Z; ring|]. apply (Qmult_inj_l _ _ k); [lra|]. rewrite <- B. ring. - intro A. apply (Qmult_inj_l _ _ k); [lra|]. rewrite A. ring. Qed.
Lemma var_scale : forall k ar r, 0 < k -> var_spec (fun g => k * ar g) r -> var_spec ar r.
Proof.
  intros k ar [s|] P; cbn.
  - intros [A B]. split; [intro Z; apply A; rewrite Z; ring|]. intros mu M. apply (Qmult_inj_l _ _ k); [lra|]. rewrite <- (B mu); [ring|]. rewrite <- M. ring.
  - intro A. apply (Qmult_inj_l _ _ k); [lra|]. rewrite A. ring.
Qed.
Theorem C72_t_multiply_statistics : forall f v m h, traced v m h -> m_stats m = false -> m_level m = true -> 0 < f -> (forall s x, In (s, x) (m_e m) -> ~ s * f == v_now v) -> exists m', t_multiply f v m = Mok m' /\ forall v' ex0,
  (exists m1 r, mean ex0 v' m' = (m1, Mok r) /\ mean_spec (fun g => area true ex0 g h (v_now v)) r) /\
  (exists m1 r, var ex0 v' m' = (m1, Mok r) /\ var_spec (fun g => area true ex0 g h (v_now v)) r) /\
  (exists m1 d, duration ex0 v' m' = (m1, Mok d) /\ d == f * area true ex0 (fun _ => 1) h (v_now v)).
Proof.
  intros f v m h T S L P N. destruct (t_multiply_entries f v m h T S L P N) as (m' & E & ME & TY & LL & SS & CA & ST). exists m'. split; auto. intros v' ex0. pose proof (mi_lev _ _ _ (traced_inv _ _ _ T) S L) as V.
  assert (OF : m_off m' = m_off m) by (unfold m_off; rewrite TY; auto).
  destruct (level_stat v' m' ex0 (fun g => f * integral g h (v_now v)) LL SS CA) as (A & B & C).
  - intros x w I O. rewrite OF in O. rewrite TY. rewrite ME in I. cbn [durs] in I. destruct I as [I|I]; [injection I as <- _; rewrite veqb_refl in O; discriminate|].
    assert (J : exists w', In (x, w') (durs (v_now v) (m_e m))). { clear - I. revert I. generalize (v_now v). induction (m_e m) as [|[s y] r IH]; intros b I; [destruct I|]. cbn in I. destruct I as [I|I]; [injection I as <- _; eexists; left; reflexivity|]. destruct (IH s I) as [w' W]. exists w'. right. auto. }
    destruct J as [w' J]. eapply level_vals; eauto.
  - intro g. rewrite ME, OF. cbn [durs]. unfold gsum at 1. cbn [filter fst]. rewrite veqb_refl. cbn [negb]. fold (gsum (m_off m) g (durs (v_now v * f) (map (stretched f) (m_e m)))). rewrite stretched_sum, (lv_int _ _ _ V). reflexivity.
  - split; [|split].
    + destruct A as (m1 & r & A1 & A2). exists m1, r. split; auto. apply (mean_scale f); auto.
    + destruct B as (m1 & r & B1 & B2). exists m1, r. split; auto. apply (var_scale f); auto.
    + destruct C as (m1 & d & C1 & C2). exists m1, d. split; auto.
Qed.
(** ** Where it fails *)
(** an entry at just now / f: the level 3 since 5, stretched by 2 at 10; the mean 3/2 becomes 0 *)
Definition story72 := story true TAny false true (Num 0) [OTick 5; OTally (Num 3) 1; OTick 5].
Theorem C72_t_multiply_refuted : exists v m h f m' q r, traced v m h /\ m_stats m = false /\ m_level m = true /\ 0 < f /\ t_multiply f v m = Mok m' /\ snd (mean false v m) = Mok (Some q) /\ snd (mean false v m') = Mok (Some r) /\ ~ q == r.
Proof.
  eexists (sv story72), (sm story72), (sh story72), 2, _, _, _. split; [apply story_after; vm_compute; reflexivity|]. do 3 (split; [vm_compute; reflexivity|]). split; [vm_compute; reflexivity|]. split; [vm_compute; reflexivity|]. split; [vm_compute; reflexivity|]. vm_compute. discriminate.
Qed.
(** after reset_now it is not the time of the user that is stretched: what was shown at 3 is not shown at 6 *)
Definition story72r := story true TAny false true (Num 0) [OTick 4; OResetNow 4; OTick 2; OTally (Num 5) 1; OTick 2; OTally (Num 6) 1; OTick 1].
Theorem C72_t_multiply_reset_refuted : exists v m h m' t x y, traced v m h /\ m_stats m = false /\ m_level m = true /\ (forall s z, In (s, z) (m_e m) -> ~ s * 2 == v_now v) /\ t_multiply 2 v m = Mok m' /\ call (Some t) v m = Mok x /\ call (Some (t * 2)) (mkMenv 100 (v_off v)) m' = Mok y /\ veqb x y = false.
Proof.
  eexists (sv story72r), (sm story72r), (sh story72r), _, 3, _, _. split; [apply story_after; vm_compute; reflexivity|]. do 2 (split; [vm_compute; reflexivity|]).
  split. { assert (E : m_e (sm story72r) = [(0 + 4 + 2 + 2, Num 6); (0 + 4 + 2, Num 5); (0, Num 0)]) by (vm_compute; reflexivity). rewrite E. intros s z I. cbn in I. assert (N : v_now (sv story72r) = 0 + 4 + 2 + 2 + 1) by (vm_compute; reflexivity). rewrite N. destruct I as [I|[I|[I|[]]]]; injection I as <- _; intro Z; vm_compute in Z; discriminate. }
  split; [vm_compute; reflexivity|]. split; [vm_compute; reflexivity|]. split; [vm_compute; reflexivity|]. vm_compute. reflexivity.
Qed.
(** in a monitor that is not a level monitor, a value that means off for its type is not mapped: 255 in a monitor of type uint8 becomes -inf *)
Definition story72u := story false ty_uint8 false true (Num 0) [OTally (Num 1) 1; OTick 1; OTally (Num 255) 1].
Theorem C72_x_map_off_value_refuted : exists v m h m', traced v m h /\ m_stats m = false /\ m_level m = false /\ x_map (fun x => Num (number x + 1)) v m = Mok m' /\ map snd (rev (m_e m')) = [Num 2; NegInf] /\ map fst (recorded h) = [Num 1; Num 255].
Proof. eexists (sv story72u), (sm story72u), (sh story72u), _. split; [apply story_after; vm_compute; reflexivity|]. do 2 (split; [vm_compute; reflexivity|]). split; [vm_compute; reflexivity|]. split; vm_compute; reflexivity. Qed.
(** at the moment that it is made, a mapped monitor shows 0, neither the mapped level nor off *)
Theorem C72_now_refuted : exists v m h m', traced v m h /\ m_stats m = false /\ m_level m = true /\ x_map (fun x => Num (number x + 1)) v m = Mok m' /\ level_at h (v_now v) = Some (Num 3) /\ call None v m' = Mok (Num 0).
Proof. eexists (sv story72), (sm story72), (sh story72), _. split; [apply story_after; vm_compute; reflexivity|]. do 2 (split; [vm_compute; reflexivity|]). split; [vm_compute; reflexivity|]. split; vm_compute; reflexivity. Qed.

(** ** Cases *)
(** two monitors, n20 + 2 * n40: off between 6 and 8 *)
Definition teu (l : list val) : val := match l with [a; b] => Num (number a + 2 * number b) | _ => Num 0 end.
Definition s20 := story true TAny false true (Num 1) [OTick 2; OTally (Num 4) 1; OTick 4; OMonitor false; OTick 2; OMonitor true; OTick 2].
Definition s40 := story true ty_uint8 false true (Num 3) [OTick 5; OTally (Num 0) 1; OTick 5].
Example C72_case_x_map : merging (sv s20) true [sm s20; sm s40] [sh s20; sh s40] /\ sv s40 = mkMenv (0 + 5 + 5) 0 /\
  everyone (map (fun h => level_at h 3) [sh s20; sh s40]) = Some [Num 4; Num 3] /\ everyone (map (fun h => level_at h 7) [sh s20; sh s40]) = None /\
  match x_maps teu (sm s20) [sm s40] (sv s20) with Mok m' => map (fun t => call (Some t) (sv s20) m') [1; 3; 5; 7; 9] = map (@Mok val) [Num 7; Num 10; Num 4; NegInf; Num 4] | _ => False end.
Proof.
  split. { constructor; [|constructor; [|constructor]]; (split; [|split; vm_compute; reflexivity]). - apply story_after; vm_compute; reflexivity. - assert (E : sv s20 = mkMenv (v_now (sv s20)) 0) by (vm_compute; reflexivity).
    assert (T : traced (sv s40) (sm s40) (sh s40)) by (apply story_after; vm_compute; reflexivity). assert (F : exists dt, 0 <= dt /\ mkMenv (v_now (sv s40) + dt) 0 = sv s20). { exists 0. split; [lra|]. vm_compute. reflexivity. } destruct F as (dt & F1 & F2). rewrite <- F2. apply (tr_ok (sv s40) (sm s40) (sh s40) (OTick dt)); [exact T|exact F1|vm_compute; reflexivity]. }
  split; [vm_compute; reflexivity|]. split; [vm_compute; reflexivity|]. split; [vm_compute; reflexivity|]. vm_compute. reflexivity.
Qed.
(** stretched by 3: 0 until 15, 3 until 30 *)
Example C72_case_t_multiply : traced (sv story72) (sm story72) (sh story72) /\ m_stats (sm story72) = false /\ m_level (sm story72) = true /\ (forall s x, In (s, x) (m_e (sm story72)) -> ~ s * 3 == v_now (sv story72)) /\
  match t_multiply 3 (sv story72) (sm story72) with Mok m' => map (fun t => call (Some t) (mkMenv 40 0) m') [14; 15; 29; 31] = map (@Mok val) [Num 0; Num 3; Num 3; NegInf] /\ match snd (duration false (mkMenv 40 0) m') with Mok d => d == 30 | _ => False end | _ => False end.
Proof.
  split; [apply story_after; vm_compute; reflexivity|]. do 2 (split; [vm_compute; reflexivity|]).
  split. { assert (E : m_e (sm story72) = [(0 + 5, Num 3); (0, Num 0)]) by (vm_compute; reflexivity). rewrite E. intros s x I. assert (N : v_now (sv story72) = 0 + 5 + 5) by (vm_compute; reflexivity). rewrite N. destruct I as [I|[I|[]]]; injection I as <- _; intro Z; vm_compute in Z; discriminate. }
  vm_compute. split; reflexivity.
Qed.
Definition story72f := story false TFloat false true (Num 0) [OTally (Num 60) 1; OTick 1; OTally (Num 90) 1].
(** 60 and 90 minutes are 1 and 3/2 hours *)
Example C72_case_multiply : traced (sv story72f) (sm story72f) (sh story72f) /\ m_stats (sm story72f) = false /\ m_level (sm story72f) = false /\ m_type (sm story72f) = TFloat /\
  match mto_time_unit (Some (1 / 60)) Hours (sv story72f) (sm story72f) with Mok m' => map (fun p => Qred (number (snd p))) (rev (m_e m')) = [1; 3 # 2] | _ => False end /\
  match x_map (fun x => Num (number x + 1)) (sv story72f) (sm story72f) with Mok m' => map (fun p => number (snd p)) (rev (m_e m')) = [61; 91] | _ => False end.
Proof. split; [apply story_after; vm_compute; reflexivity|]. do 3 (split; [vm_compute; reflexivity|]). split; vm_compute; reflexivity. Qed.
(** the mean of the level plus 1 *)
Example C72_case_statistics : traced (sv story72) (sm story72) (sh story72) /\ match x_map (fun x => Num (number x + 1)) (sv story72) (sm story72) with Mok m' => match snd (mean false (mkMenv 40 0) m') with Mok (Some q) => q == 5 # 2 | _ => False end | _ => False end.
Proof. split; [apply story_after; vm_compute; reflexivity|]. vm_compute. reflexivity. Qed.

(** ** C70: the parameters of a histogram that are not given *)
(** when some are given, the others are 30 bins, lower bound 0, width 1 *)
Theorem C70_defaults : forall nbins low width ex0 v m, (nbins <> None \/ low <> None \/ width <> None) ->
  histogram nbins low width ex0 v m = histogram (Some (match nbins with Some n => n | None => 30%Z end)) (Some (match low with Some q => q | None => 0 end)) (Some (match width with Some q => q | None => 1 end)) ex0 v m.
Proof. intros [n|] [l|] [w|] ex0 v m H; try reflexivity. destruct H as [H|[H|H]]; congruence. Qed.
Example C70_case_defaults : match histogram (Some 1%Z) None None false (sv story72) (sm story72) with Mok l => map w_ub l = [BFin 0; BFin 1; BInf] | _ => False end.
Proof. vm_compute. reflexivity. Qed.
Print Assumptions C72_x_map. Print Assumptions C72_x_map_statistics. Print Assumptions C72_x_map_plain. Print Assumptions C72_multiply. Print Assumptions C72_to_time_unit. Print Assumptions C72_t_multiply. Print Assumptions C72_t_multiply_statistics.
Print Assumptions C72_t_multiply_refuted. Print Assumptions C72_t_multiply_reset_refuted. Print Assumptions C72_x_map_off_value_refuted. Print Assumptions C72_now_refuted. Print Assumptions C70_defaults.
