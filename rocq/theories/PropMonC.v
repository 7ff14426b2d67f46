(** Monitors made from monitors: C43 (merge), C44 (slice) *)
From Coq Require Import QArith Qround Lqa List Bool Arith ZArith Lia Permutation Sorted.
From Verif Require Import Base Util PropUtil Mon MonSpec MonP MonQ MonR PropMon.
Import ListNotations.
Open Scope Q_scope.

(** *** merging sorted lists *)
Section Merge.
Context {A : Type} (key : A -> Q).
Definition restrict (i : nat) (l : list (nat * A)) : list A := map snd (filter (fun p => Nat.eqb (fst p) i) l).
Definition keyed (a b : A) : Prop := key a <= key b.
Lemma best_spec : forall ls i, match best key i ls with
  | None => Forall (fun l => l = []) ls
  | Some (j, a) => exists k t, j = (i + k)%nat /\ nth_error ls k = Some (a :: t) /\ forall k' b t', nth_error ls k' = Some (b :: t') -> key a <= key b end.
Proof.
  induction ls as [|[|a t] r IH]; intro i; cbn [best].
  - constructor.
  - specialize (IH (S i)). destruct (best key (S i) r) as [[j b]|]; [|constructor; auto]. destruct IH as (k & t & -> & N & M). exists (S k), t. split; [lia|]. split; auto. intros [|k'] c t' E; [discriminate|]. eapply M; eauto.
  - specialize (IH (S i)). destruct (best key (S i) r) as [[j b]|].
    + destruct IH as (k & u & -> & N & M). destruct (Qltb (key b) (key a)) eqn:L.
      * apply Qltb_iff in L. exists (S k), u. split; [lia|]. split; auto. intros [|k'] c t' E; [cbn in E; injection E as <- <-; lra|]. eapply M; eauto.
      * apply Qltb_false_iff in L. exists 0%nat, t. split; [lia|]. split; auto. intros [|k'] c t' E; [cbn in E; injection E as <- <-; lra|]. cbn in E. pose proof (M _ _ _ E). lra.
    + exists 0%nat, t. split; [lia|]. split; auto. intros [|k'] c t' E; [cbn in E; injection E as <- <-; lra|]. cbn in E. rewrite Forall_forall in IH. apply nth_error_In in E. apply IH in E. discriminate.
Qed.
Lemma drop_same : forall k (ls : list (list A)) a t, nth_error ls k = Some (a :: t) -> nth_error (drop_head k ls) k = Some t.
Proof. induction k as [|k IH]; intros [|l r] a t E; cbn in *; try discriminate; [injection E as ->; auto|eauto]. Qed.
Lemma drop_diff : forall k (ls : list (list A)) j, j <> k -> nth_error (drop_head k ls) j = nth_error ls j.
Proof. induction k as [|k IH]; intros [|l r] [|j] N; cbn [drop_head nth_error]; auto; try congruence; try (destruct l; auto; congruence). Qed.
Lemma drop_perm : forall k (ls : list (list A)) a t, nth_error ls k = Some (a :: t) -> Permutation (concat ls) (a :: concat (drop_head k ls)).
Proof.
  induction k as [|k IH]; intros [|l r] a t E; cbn in E; try discriminate; [injection E as ->; cbn; auto|]. cbn [drop_head concat]. rewrite (IH _ _ _ E). symmetry. apply Permutation_middle.
Qed.
Lemma nil_concat : forall (ls : list (list A)), Forall (fun l => l = []) ls -> concat ls = [].
Proof. induction 1; cbn; auto. subst. auto. Qed.
Lemma kmerge_perm : forall n ls, length (concat ls) = n -> Permutation (map snd (kmerge key n ls)) (concat ls).
Proof.
  induction n as [|n IH]; intros ls E; cbn [kmerge]; [destruct (concat ls); [auto|discriminate]|].
  pose proof (best_spec ls 0) as B. destruct (best key 0 ls) as [[j a]|].
  - destruct B as (k & t & -> & N & _). cbn [plus map snd]. pose proof (drop_perm k ls a t N) as P. rewrite P. constructor. apply IH. apply Permutation_length in P. cbn in P. lia.
  - rewrite nil_concat in E by auto. discriminate.
Qed.
Lemma kmerge_restrict : forall n ls, length (concat ls) = n -> forall i l, nth_error ls i = Some l -> restrict i (kmerge key n ls) = l.
Proof.
  induction n as [|n IH]; intros ls E i l N; cbn [kmerge].
  - assert (C : concat ls = []) by (destruct (concat ls); [auto|discriminate]). apply nth_error_split in N. destruct N as (l1 & l2 & -> & _). rewrite concat_app in C. cbn in C. apply app_eq_nil in C. destruct C as [_ C]. apply app_eq_nil in C. destruct C as [-> _]. auto.
  - pose proof (best_spec ls 0) as B. destruct (best key 0 ls) as [[j a]|]; [|rewrite nil_concat in E by auto; discriminate].
    destruct B as (k & t & -> & NK & _). cbn [plus]. assert (E' : length (concat (drop_head k ls)) = n). { pose proof (Permutation_length (drop_perm k ls a t NK)) as P. cbn in P. lia. }
    unfold restrict. cbn [filter fst]. destruct (Nat.eqb k i) eqn:KI.
    + apply Nat.eqb_eq in KI. subst i. cbn [map snd]. fold (restrict k (kmerge key n (drop_head k ls))). rewrite (IH _ E' k t) by (eapply drop_same; eauto). congruence.
    + apply Nat.eqb_neq in KI. apply (IH _ E'). rewrite drop_diff; auto.
Qed.
Lemma kmerge_index : forall n ls p, In p (kmerge key n ls) -> (fst p < length ls)%nat.
Proof.
  assert (DL : forall k (ls : list (list A)), length (drop_head k ls) = length ls) by (induction k as [|k IH]; intros [|[|? ?] r]; cbn; auto).
  induction n as [|n IH]; intros ls p I; cbn [kmerge] in I; [destruct I|]. pose proof (best_spec ls 0) as B. destruct (best key 0 ls) as [[j a]|]; [|destruct I]. destruct B as (k & t & -> & NK & _). cbn [plus] in I.
  destruct I as [<-|I]; [cbn; apply nth_error_Some; congruence|]. apply IH in I. rewrite DL in I. auto.
Qed.
Lemma kmerge_sorted : forall n ls, length (concat ls) = n -> Forall (StronglySorted keyed) ls -> StronglySorted keyed (map snd (kmerge key n ls)).
Proof.
  induction n as [|n IH]; intros ls E S; cbn [kmerge]; [constructor|]. pose proof (best_spec ls 0) as B. destruct (best key 0 ls) as [[j a]|]; [|constructor]. destruct B as (k & t & -> & NK & M). cbn [plus map snd].
  pose proof (drop_perm k ls a t NK) as P. assert (E' : length (concat (drop_head k ls)) = n) by (apply Permutation_length in P; cbn in P; lia).
  assert (S' : Forall (StronglySorted keyed) (drop_head k ls)). { apply Forall_forall. intros l I. apply In_nth_error in I. destruct I as [i I]. destruct (Nat.eq_dec i k) as [-> |NE].
    - rewrite (drop_same _ _ _ _ NK) in I. injection I as <-. rewrite Forall_forall in S. apply nth_error_In in NK. apply S in NK. inversion NK. auto.
    - rewrite drop_diff in I by auto. rewrite Forall_forall in S. apply S. eapply nth_error_In; eauto. }
  constructor; [apply IH; auto|]. apply Forall_forall. intros b I. assert (IB : In b (concat ls)). { eapply Permutation_in; [symmetry; exact P|]. right. eapply Permutation_in; [apply kmerge_perm; exact E'|auto]. }
  apply in_concat in IB. destruct IB as (l & L1 & L2). apply In_nth_error in L1. destruct L1 as [i L1]. destruct l as [|c u]; [destruct L2|]. pose proof (M _ _ _ L1) as MC. rewrite Forall_forall in S. apply nth_error_In in L1. apply S in L1. inversion L1 as [|? ? _ F]. subst. unfold keyed. destruct L2 as [<-|L2]; auto. rewrite Forall_forall in F. pose proof (F _ L2) as FB. unfold keyed in FB. lra.
Qed.
Lemma hmerge_perm : forall ls, Permutation (map snd (hmerge key ls)) (concat ls). Proof. intro. apply kmerge_perm. auto. Qed.
Lemma hmerge_restrict : forall ls i l, nth_error ls i = Some l -> restrict i (hmerge key ls) = l. Proof. intros. apply kmerge_restrict; auto. Qed.
Lemma hmerge_sorted : forall ls, Forall (StronglySorted keyed) ls -> StronglySorted keyed (map snd (hmerge key ls)). Proof. intros. apply kmerge_sorted; auto. Qed.
Lemma hmerge_index : forall ls p, In p (hmerge key ls) -> (fst p < length ls)%nat. Proof. intros ls p I. eapply kmerge_index; eauto. Qed.
End Merge.

(** *** the monitor that is returned *)
Lemma finish_plain : forall v m, m_stats m = false -> m_level m = false -> finish v m = Mok (set_gen (set_on false m)).
Proof. intros v m S L. unfold finish, monitor. rewrite S. cbn [andb set_on m_level]. rewrite L. auto. Qed.
Lemma finish_level : forall v m, m_stats m = false -> m_gen m = false -> m_level m = true -> m_e m <> [] -> finish v m = Mok (set_gen (set_e (put_last (v_now v) (m_off m) (m_e m)) (set_on false m))).
Proof. intros v m S G L E. unfold finish, monitor. rewrite S. cbn [andb set_on m_level]. rewrite L. unfold tally_off. cbn [m_gen m_e set_on]. rewrite G. destruct (m_e m) eqn:EE; [tauto|]. auto. Qed.
Lemma finish_fields : forall v new t0 e m', m_stats new = false -> m_gen new = false -> m_level new = true -> e <> [] -> finish v (set_start t0 (set_e e new)) = Mok m' ->
  m_type m' = m_type new /\ m_stats m' = false /\ m_level m' = true /\ m_e m' = put_last (v_now v) (m_off new) e /\ m_cache m' = m_cache new /\ m_w m' = m_w new /\ m_start m' = t0.
Proof.
  intros v new t0 e m' S G L NE E. rewrite finish_level in E by (cbn [set_start set_e m_stats m_gen m_level m_e]; auto). injection E as <-. unfold m_off. cbn [set_start set_e set_gen set_on m_type m_stats m_level m_e m_cache m_w m_start]. auto 10.
Qed.
Lemma fresh_plain : forall ty v, fresh false ty v = mkMon false ty false false true (Num 0) (v_now v) (v_now v) [] WNo (v_now v) acc0 acc0 [].
Proof. reflexivity. Qed.
Lemma fresh_level : forall ty v, m_stats (fresh true ty v) = false /\ m_gen (fresh true ty v) = false /\ m_level (fresh true ty v) = true /\ m_type (fresh true ty v) = ty /\ m_w (fresh true ty v) = WLevel /\ m_cache (fresh true ty v) = [].
Proof.
  intros ty v. assert (E : fresh true ty v = fst (tally (Num 0) 1 v (set_on true (set_cache [] (set_w WLevel (set_e [(v_now v, Num 0)] (mkMon true ty false false true (Num 0) (v_now v) (v_now v) [] WNo (v_now v) acc0 acc0 []))))))) by reflexivity. rewrite E. clear E.
  unfold tally. cbn [set_on set_cache set_w set_e m_gen m_stats m_level m_off m_type m_on m_e]. change (negb (Qeq_bool 1 1)) with false. cbn iota. repeat match goal with |- context [if ?c then _ else _] => destruct c end; repeat (split; [reflexivity|]); reflexivity.
Qed.

(** ** C43: merging *)
(** *** monitors that are not level monitors *)
Definition time (p : Q * val * Q) : Q := fst (fst p).
Definition on_time_order (l : list (Q * val * Q)) : Prop := StronglySorted (fun a b => time a <= time b) l.
(** the same entry, with an equal weight *)
Definition same_entry (p q : Q * val * Q) : Prop := fst p = fst q /\ snd p == snd q.
Lemma F2_rev_gen : forall A B (R : A -> B -> Prop) l k, Forall2 R l k -> Forall2 R (rev l) (rev k).
Proof. induction 1; cbn; [constructor|]. apply Forall2_app; auto. Qed.
Lemma entries_seen : forall m h, Pla m h -> Forall2 same_entry (entries_w m) (rev (seen h)).
Proof.
  intros m h [PE PW _]. unfold entries_w. rewrite PE. set (l := seen h) in *. clearbody l. clear PE.
  assert (G : forall (es : list (Q * val)) ws l, es = map fst l -> Forall2 (fun a p => a == snd p) ws l -> Forall2 same_entry (combine es ws) l).
  { clear. intros es ws l -> F. induction F as [|a p ws l E F IH]; cbn; constructor; auto. split; auto. }
  apply G; [symmetry; apply map_rev|]. rewrite map_length. destruct (m_w m) as [| |ws]; cbn in PW; [|tauto|apply F2_rev_gen; auto].
  rewrite <- (rev_length l). apply Forall_rev in PW. induction PW as [|p r E F IH]; cbn [length repeat]; constructor; auto. rewrite E. reflexivity.
Qed.
Lemma merge_plain_spec : forall ty l e w k, merge_plain ty l (map fst k) w = Mok e -> weights_ok w k ->
  weights_ok (snd e) (rev (map snd l) ++ k) /\ fst e = map fst (rev (map snd l) ++ k) /\ Forall (fun p => fits ty (snd (fst p)) = true) (map snd l).
Proof.
  intros ty. induction l as [|[i [[t x] wt]] r IH]; intros e w k E W; cbn [merge_plain] in E; [injection E as <-; cbn; auto|]. destruct (fits ty x) eqn:F; [|discriminate].
  destruct (IH e (add_weight wt (length (map fst k)) w) ((t, x, wt) :: k) E) as (A & B & C); [rewrite map_length; apply weights_add; auto|].
  cbn [map snd rev]. rewrite <- app_assoc. cbn [app]. auto.
Qed.
Lemma merge_plain_ok : forall ty l k w, Forall (fun p => fits ty (snd (fst (snd p))) = true) l -> exists e, merge_plain ty l k w = Mok e.
Proof. intros ty. induction l as [|[i [[t x] wt]] r IH]; intros k w F; cbn [merge_plain]; [eauto|]. inversion F as [|? ? F1 F2]. subst. cbn [fst snd] in F1. rewrite F1. auto. Qed.
Lemma ty_eqb_eq : forall a b, ty_eqb a b = true -> a = b.
Proof. intros [| |l h o] [| |l' h' o'] E; cbn in E; try discriminate; auto. apply andb_true_iff in E. destruct E as [E O]. apply andb_true_iff in E. destruct E as [L H]. apply Z.eqb_eq in L, H, O. congruence. Qed.
(** the type of the result: the common type, or any *)
Lemma merged_any : forall self ms, (forall m, In m ms -> True) -> merged_type self TAny ms = TAny.
Proof. intros self ms _. induction ms as [|m r IH]; cbn [merged_type]; auto. assert (E : (if ty_eqb self (m_type m) then TAny else TAny) = TAny) by (destruct (ty_eqb self (m_type m)); auto). rewrite E. destruct (ty_eqb (m_type m) TAny); auto. Qed.
Lemma merged_cases : forall self ms, (merged_type self self ms = self /\ forall m, In m ms -> m_type m = self) \/ merged_type self self ms = TAny.
Proof.
  intros self. induction ms as [|m r IH]; cbn [merged_type]; [left; split; auto; intros m []|].
  destruct (ty_eqb self (m_type m)) eqn:E.
  - apply ty_eqb_eq in E. rewrite <- E. destruct (ty_eqb self self) eqn:E2; [|right; apply merged_any; auto]. destruct IH as [[A B]|A]; auto. left. split; auto. intros x [<-|I]; auto.
  - right. destruct (ty_eqb (m_type m) TAny); apply merged_any; auto.
Qed.
Lemma merged_fits : forall self ms m x, In m (self :: ms) -> fits (m_type m) x = true -> fits (merged_type (m_type self) (m_type self) ms) x = true.
Proof. intros self ms m x I F. destruct (merged_cases (m_type self) ms) as [[-> A]| ->]; [|auto]. destruct I as [<-|I]; auto. rewrite <- (A m I). auto. Qed.
(** the times in a history go down from now *)
Lemma traced_times : forall v m h, traced v m h -> StronglySorted (fun a b => fst b <= fst a) h /\ Forall (fun p : Q * happening => fst p <= v_now v) h.
Proof.
  induction 1 as [level ty stats on init v m C V|v m h o v' m' T [IH1 IH2] OK E|v m h o v' m' e T [IH1 IH2] OK E].
  - split; [repeat constructor|]. constructor; auto. cbn. lra.
  - assert (LE : v_now v <= v_now v'). { destruct o; cbn [mexec] in E; repeat match type of E with context [let '(_, _) := ?p in _] => destruct p | context [if ?c then _ else _] => destruct c end; injection E; intros; subst; cbn in *; lra. }
    assert (F' : Forall (fun p : Q * happening => fst p <= v_now v') h) by (eapply Forall_impl; [|exact IH2]; cbn; intros; lra).
    destruct o; cbn [note_op]; auto; (split; [constructor; auto|constructor; auto]).
  - assert (LE : v_now v <= v_now v'). { destruct o; cbn [mexec] in E; repeat match type of E with context [let '(_, _) := ?p in _] => destruct p | context [if ?c then _ else _] => destruct c end; try discriminate; injection E; intros; subst; cbn in *; lra. }
    split; auto. eapply Forall_impl; [|exact IH2]; cbn; intros; lra.
Qed.
Lemma seen_in : forall h p, In p (seen h) -> exists e, In (time p, e) h.
Proof.
  induction h as [|[s e] r IH]; intros p I; cbn [seen] in I; [destruct I|]. destruct e; try (destruct I; fail).
  - destruct (on_of r); [destruct I as [<-|I]; [eexists; left; reflexivity|]|]; apply IH in I; destruct I as [e I]; exists e; right; auto.
  - apply IH in I; destruct I as [e I]; exists e; right; auto.
Qed.
Lemma seen_sorted : forall h, StronglySorted (fun a b => fst b <= fst a) h -> StronglySorted (fun a b => time b <= time a) (seen h).
Proof.
  induction h as [|[s e] r IH]; intros S; cbn [seen]; [constructor|]. inversion S as [|? ? S1 F]. subst. destruct e; try constructor; auto. destruct (on_of r); auto. constructor; auto. apply Forall_forall. intros p I. apply seen_in in I. destruct I as [e I]. rewrite Forall_forall in F. apply F in I. cbn in *. auto.
Qed.
Lemma sorted_snoc : forall A (R : A -> A -> Prop) l a, StronglySorted R l -> Forall (fun b => R b a) l -> StronglySorted R (l ++ [a]).
Proof. induction 1 as [|b l S IH F]; intro G; cbn; [repeat constructor|]. inversion G. subst. constructor; auto. apply Forall_app. split; auto. Qed.
Lemma sorted_rev : forall A (R : A -> A -> Prop) l, StronglySorted R l -> StronglySorted (fun a b => R b a) (rev l).
Proof. induction 1 as [|b l S IH F]; cbn; [constructor|]. apply sorted_snoc; auto. apply Forall_rev. auto. Qed.
Lemma sorted_same : forall l k, Forall2 same_entry l k -> on_time_order k -> on_time_order l.
Proof.
  induction 1 as [|a b l k E F IH]; intro S; [constructor|]. inversion S as [|? ? S1 G]. subst. constructor; [apply IH; auto|]. clear - E F G. induction F as [|c d l k E2 F IH]; [constructor|]. inversion G. subst. constructor; [|apply IH; auto]. destruct E as [E _], E2 as [E2 _]. unfold time in *. rewrite E, E2. auto.
Qed.
Lemma entries_sorted : forall v m h, traced v m h -> m_stats m = false -> m_level m = false -> on_time_order (entries_w m).
Proof.
  intros v m h T S L. eapply sorted_same; [apply entries_seen; apply (mi_pla _ _ _ (traced_inv _ _ _ T) S L)|]. apply (sorted_rev _ (fun a b => time b <= time a)). apply seen_sorted. apply (traced_times _ _ _ T).
Qed.
Lemma same_perm : forall l l' k, Permutation l l' -> Forall2 same_entry l k -> exists k', Permutation k k' /\ Forall2 same_entry l' k'.
Proof. intros. eapply Permutation_Forall2; eauto. Qed.
Lemma F2_concat : forall A B (R : A -> B -> Prop) l k, Forall2 (Forall2 R) l k -> Forall2 R (concat l) (concat k).
Proof. induction 1; cbn; [constructor|]. apply Forall2_app; auto. Qed.
Lemma weights_same : forall w l k, weights_ok w l -> Forall2 same_entry l k -> weights_ok w k.
Proof.
  intros [| |ws] l k W F; cbn in *; auto.
  - induction F as [|a b l k [_ E] F IH]; constructor; inversion W; subst; [rewrite <- E; auto|apply IH; auto].
  - revert ws W. induction F as [|a b l k [_ E] F IH]; intros ws W; inversion W; subst; constructor; [rewrite <- E; auto|apply IH; auto].
Qed.
Lemma same_fst : forall l k, Forall2 same_entry l k -> map fst l = map fst k.
Proof. induction 1 as [|a b l k [E _] F IH]; cbn; congruence. Qed.

(** what the statistics of a monitor with the (weighted) data [D] should be *)
Definition statistics (ex0 : bool) (v : menv) (m : mon) (D : list (Q * Q)) : Prop :=
  snd (number_of_entries ex0 v m) = Mok (length D) /\ (exists m' w, weight ex0 v m = (m', Mok w) /\ w == sumQ (map snd D)) /\
  (exists m' r, mean ex0 v m = (m', Mok r) /\ match r with None => sumQ (map snd D) == 0 | Some mu => ~ sumQ (map snd D) == 0 /\ is_mean D mu end) /\
  (exists m' r, var ex0 v m = (m', Mok r) /\ match r with None => sumQ (map snd D) == 0 | Some s => ~ sumQ (map snd D) == 0 /\ forall mu, is_mean D mu -> is_variance D mu s end) /\
  least_spec (map fst D) (snd (minimum ex0 v m)) /\ largest_spec (map fst D) (snd (maximum ex0 v m)).
Lemma total_perm : forall A (g : A -> Q) l k, Permutation l k -> total_of g l == total_of g k.
Proof. induction 1 as [|[x w] l k P IH|[x w] [y u] l|l k j P1 IH1 P2 IH2]; cbn; [reflexivity|rewrite IH; reflexivity|ring|rewrite IH1; auto]. Qed.
Lemma sum_total : forall D : list (Q * Q), sumQ (map snd D) == total_of (fun _ => 1) D.
Proof. induction D as [|[x w] l IH]; cbn; [reflexivity|]. rewrite IH. ring. Qed.
Lemma pla_statistics : forall v m h ex0 D, Pla m h -> m_level m = false -> m_stats m = false -> m_cache m = [] -> Permutation (data ex0 h) D -> statistics ex0 v m D.
Proof.
  intros v m h ex0 D P L S C PD. assert (X : exists m', xweight ex0 true v m = (m', xweight0 ex0 true v m)) by (unfold xweight; rewrite C; cbn [cget]; eauto). destruct X as [m' X].
  pose proof (xw_pla_data v m h ex0 P L) as W. destruct W as [W1 W2]. set (r := xweight0 ex0 true v m) in *. cbn [both fst snd] in W1, W2.
  assert (EV : even r). { unfold even. rewrite W1. rewrite (F2_length _ _ _ _ _ W2), !map_length. auto. }
  assert (TO : forall g, total_of (fun x => g (numq x)) (pairs r) == total_of g D). { intro g. rewrite (weq_totals r (both (map (fun p : Q * Q => (Num (fst p), snd p)) (data ex0 h))) (conj W1 W2) _), both_pairs, (total_map _ _ (fun x => g (numq x)) Num). cbn [numq]. apply total_perm. auto. }
  assert (SW : sumQ (snd r) == sumQ (map snd D)) by (rewrite (sumQ_total r EV), sum_total; apply (TO (fun _ => 1))).
  unfold statistics, number_of_entries, weight, sys_weight, mean, var, minimum, maximum. rewrite L, S, X. cbn [snd].
  split; [rewrite W1, !map_length, (Permutation_length PD); auto|]. split; [eauto|].
  assert (W : sumQ (map snd D) == total_of (fun _ => 1) D) by apply sum_total.
  split. { eexists _, _. split; [reflexivity|]. pose proof (mean_of_spec r (fun g => total_of g D) EV TO) as M. destruct (mean_of r) as [mu|]; cbn [mean_spec] in M; [|rewrite W; auto]. destruct M as [M1 M2]. split; [rewrite W; auto|exact M2]. }
  split. { eexists _, _. split; [reflexivity|]. pose proof (var_of_spec r (fun g => total_of g D) EV TO) as M. destruct (var_of r) as [mu|]; cbn [var_spec] in M; [|rewrite W; auto]. destruct M as [M1 M2]. split; [rewrite W; auto|exact M2]. }
  assert (IN : forall x, In x (map numq (fst r)) <-> In x (map fst D)). { intro x. rewrite W1, map_map, map_map. cbn [fst numq]. split; intro I; apply in_map_iff in I; destruct I as (p & <- & I); apply in_map; [eapply Permutation_in; eauto|eapply Permutation_in; [symmetry; exact PD|auto]]. }
  assert (NIL : fst r = [] -> map fst D = []). { intro Z. rewrite Z in W1. assert (DN : data ex0 h = []) by (destruct (data ex0 h); [auto|discriminate]). rewrite DN in PD. apply Permutation_nil in PD. subst. auto. }
  split.
  - pose proof (min_of_spec (fst r)) as M. destruct (min_of (fst r)) as [q|]; cbn [least_spec] in *; [|apply NIL; destruct (fst r); [auto|discriminate]]. destruct M as [(x & X1 & X2) X3]. split; [exists x; split; auto; apply IN; auto|]. intros y Y. apply X3. apply IN. auto.
  - pose proof (max_of_spec (fst r)) as M. destruct (max_of (fst r)) as [q|]; cbn [largest_spec] in *; [|apply NIL; destruct (fst r); [auto|discriminate]]. destruct M as [(x & X1 & X2) X3]. split; [exists x; split; auto; apply IN; auto|]. intros y Y. apply X3. apply IN. auto.
Qed.
(** a history with the given entries (last first) *)
Definition told (l : list (Q * val * Q)) : hist := map (fun p => (time p, HTally (snd (fst p)) (snd p))) l ++ [(0, HMade (Num 0) true)].
Lemma told_on : forall l, on_of (told l) = true. Proof. induction l as [|p r IH]; cbn; auto. Qed.
Lemma told_seen : forall l, seen (told l) = l.
Proof. induction l as [|[[t x] w] r IH]; [reflexivity|]. unfold told. cbn [map app seen]. fold (told r). rewrite told_on, IH. auto. Qed.
Lemma data_seen : forall ex0 h, data ex0 h = map (fun p => (number (snd (fst p)), snd p)) (filter (fun p => negb (ex0 && zero (snd (fst p)))) (rev (seen h))).
Proof. intros ex0 h. unfold data, recorded. induction (rev (seen h)) as [|[[t x] w] r IH]; cbn [map filter fst snd]; auto. destruct (negb (ex0 && zero x)); cbn [map fst snd]; congruence. Qed.
Lemma filter_perm : forall A (f : A -> bool) l k, Permutation l k -> Permutation (filter f l) (filter f k).
Proof. induction 1 as [|a l k P IH|a b l|l k j P1 IH1 P2 IH2]; cbn; auto; [destruct (f a); auto|destruct (f a), (f b); auto using perm_swap|eapply perm_trans; eauto]. Qed.

(** the monitors that are merged, with their histories *)
Definition merging (v : menv) (level : bool) (ms : list mon) (hs : list hist) : Prop := Forall2 (fun m h => traced v m h /\ m_stats m = false /\ m_level m = level) ms hs.
Lemma merging_in : forall v level ms hs m, merging v level ms hs -> In m ms -> exists h, traced v m h /\ m_stats m = false /\ m_level m = level.
Proof. induction 1 as [|a h l k A F IH]; intro I; [destruct I|]. destruct I as [<-|I]; eauto. Qed.
Lemma merging_checks : forall v level self ms hs, merging v level (self :: ms) hs -> m_stats self || existsb m_stats ms = false /\ existsb (fun m => negb (Bool.eqb (m_level m) (m_level self))) ms = false /\ m_level self = level.
Proof.
  intros v level self ms hs M. destruct (merging_in _ _ _ _ self M (or_introl eq_refl)) as (h & _ & S & L). split; [|split; auto].
  - rewrite S. apply not_true_is_false. intro E. apply existsb_exists in E. destruct E as (m & I & E). destruct (merging_in _ _ _ _ m M (or_intror I)) as (h' & _ & S' & _). congruence.
  - apply not_true_is_false. intro E. apply existsb_exists in E. destruct E as (m & I & E). destruct (merging_in _ _ _ _ m M (or_intror I)) as (h' & _ & _ & L'). rewrite L, L', eqb_reflx in E. discriminate.
Qed.
Lemma merge_plain_pla : forall v self ms hs, merging v false (self :: ms) hs -> exists m' l, merge self ms v = Mok m' /\
  Permutation (concat (map seen hs)) l /\ on_time_order l /\ m_level m' = false /\ m_stats m' = false /\ m_cache m' = [] /\ Pla m' (told (rev l)).
Proof.
  intros v self ms hs M. set (all := self :: ms) in *.
  destruct (merging_checks _ _ _ _ _ M) as (ST & LS & LV).
  set (ty := merged_type (m_type self) (m_type self) ms).
  assert (PE : Forall2 (Forall2 same_entry) (map entries_w all) (map (fun h => rev (seen h)) hs)).
  { clear - M. induction M as [|a h l k (A & B & C) F IH]; cbn; constructor; auto. apply entries_seen. apply (mi_pla _ _ _ (traced_inv _ _ _ A) B C). }
  assert (PF : Forall (fun p => fits ty (snd (fst p)) = true) (concat (map entries_w all))).
  { apply Forall_forall. intros p I. apply in_concat in I. destruct I as (es & I1 & I2). apply in_map_iff in I1. destruct I1 as (m & <- & I1). apply (merged_fits self ms m); auto. assert (X : exists h, Pla m h). { destruct (merging_in _ _ _ _ m M I1) as (h & A & B & C). exists h. apply (mi_pla _ _ _ (traced_inv _ _ _ A) B C). }
    destruct X as [h P]. pose proof (entries_seen _ _ P) as F2. assert (Y : exists q, In q (rev (seen h)) /\ fst p = fst q). { clear - F2 I2. induction F2 as [|a b l k [E _] F IH]; [destruct I2|]. destruct I2 as [<-|I2]; [exists b; split; auto; left; auto|]. destruct (IH I2) as (q & Q1 & Q2). exists q. split; auto. right. auto. }
    destruct Y as ([[t x] w] & Y1 & ->). apply in_rev in Y1. apply (pl_vals _ _ P t x w Y1). }
  set (L := hmerge (fun p : Q * val * Q => fst (fst p)) (map entries_w all)). pose proof (hmerge_perm (fun p : Q * val * Q => fst (fst p)) (map entries_w all)) as HP. fold L in HP.
  destruct (merge_plain_ok ty L [] WNo) as [[e w] ME]. { apply Forall_forall. intros p I. rewrite Forall_forall in PF. apply (PF (snd p)). eapply Permutation_in; [exact HP|]. apply in_map. auto. }
  destruct (merge_plain_spec ty L (e, w) WNo [] ME ltac:(constructor)) as (W1 & W2 & _). cbn [fst snd] in W1, W2. rewrite app_nil_r in W1, W2.
  assert (HS : on_time_order (map snd L)). { apply (hmerge_sorted (fun p : Q * val * Q => fst (fst p))). apply Forall_forall. intros es I. apply in_map_iff in I. destruct I as (m & <- & I). destruct (merging_in _ _ _ _ m M I) as (h & A & B & C). eapply entries_sorted; eauto. }
  assert (PC : Permutation (concat (map (fun h => rev (seen h)) hs)) (concat (map seen hs))). { clear. induction hs as [|h r IH]; cbn; auto. apply Permutation_app; auto. symmetry. apply Permutation_rev. }
  destruct (same_perm _ _ _ (Permutation_sym HP) (F2_concat _ _ _ _ _ PE)) as (l & L1 & L2).
  exists (set_gen (set_on false (set_w w (set_e e (fresh false ty v))))), l.
  split. { unfold merge. rewrite ST, LS, LV. fold all ty L. rewrite ME. rewrite finish_plain by reflexivity. auto. }
  split; [rewrite <- PC; auto|]. split. { clear - HS L2. apply sorted_same with (k := map snd L); auto. clear HS. induction L2 as [|a b l k [E1 E2] F IH]; constructor; auto. split; auto. rewrite E2. reflexivity. }
  split; [reflexivity|]. split; [reflexivity|]. split; [reflexivity|]. split; rewrite ?told_seen; cbn [set_gen set_on set_w set_e m_e m_w m_type].
  - rewrite W2, map_rev, map_rev. f_equal. apply same_fst. auto.
  - eapply weights_same; [exact W1|]. apply F2_rev_gen. auto.
  - intros t x u I. apply in_rev in I. eapply Permutation_in in I; [|symmetry; exact L1]. eapply Permutation_in in I; [|exact PC]. apply in_concat in I. destruct I as (es & I1 & I2). apply in_map_iff in I1. destruct I1 as (h & <- & I1).
    assert (X : exists m, In m all /\ Pla m h). { clear - M I1. clearbody all. induction M as [|a h' l k (A & B & C) F IH]; [destruct I1|]. destruct I1 as [<-|I1]; [exists a; split; [left; auto|apply (mi_pla _ _ _ (traced_inv _ _ _ A) B C)]|]. destruct (IH I1) as (m & A1 & A2). exists m. split; auto. right. auto. }
    destruct X as (m & A1 & A2). destruct (pl_vals _ _ A2 t x u I2) as [A3 A4]. split; auto. apply (merged_fits self ms m); auto.
Qed.
(** merging gives a monitor with just the entries of all monitors, with their weights, on order of time *)
Theorem C43_plain : forall v self ms hs, merging v false (self :: ms) hs -> exists m' l, merge self ms v = Mok m' /\
  Permutation (concat (map seen hs)) l /\ on_time_order l /\ m_level m' = false /\ rev (m_e m') = map fst l /\ weights_ok (m_w m') (rev l).
Proof.
  intros v self ms hs M. destruct (merge_plain_pla v self ms hs M) as (m' & l & A & B & C & D & E & F & [G1 G2 G3]). exists m', l. rewrite told_seen in *. rewrite G1, <- map_rev, rev_involutive. auto 10.
Qed.
(** so the statistics are those of all the data together *)
Theorem C43_statistics : forall v self ms hs ex0, merging v false (self :: ms) hs -> exists m', merge self ms v = Mok m' /\ statistics ex0 v m' (concat (map (data ex0) hs)).
Proof.
  intros v self ms hs ex0 M. destruct (merge_plain_pla v self ms hs M) as (m' & l & A & B & C & D & E & F & G). exists m'. split; auto. eapply pla_statistics; eauto. rewrite data_seen, told_seen, rev_involutive.
  assert (X : concat (map (data ex0) hs) = map (fun p => (number (snd (fst p)), snd p)) (filter (fun p => negb (ex0 && zero (snd (fst p)))) (concat (map (fun h => rev (seen h)) hs)))).
  { clear. induction hs as [|h r IH]; [reflexivity|]. cbn [map concat]. rewrite filter_app, map_app, IH. f_equal. apply data_seen. }
  rewrite X. apply Permutation_map. apply filter_perm. rewrite <- B. clear. induction hs as [|h r IH]; cbn; auto. apply Permutation_app; auto. apply Permutation_rev.
Qed.

(** *** level monitors *)
(** the values at one time, added; nothing if one of them is off *)
Fixpoint added (l : list (option val)) : option Q := match l with [] => Some 0 | None :: _ => None | Some x :: r => match added r with Some q => Some (number x + q) | None => None end end.
(** the last value of entries in order of time, or off *)
Definition lastval (off : val) (l : list (Q * val)) : val := match rev l with [] => off | (_, x) :: _ => x end.
Definition until (t : Q) (l : list (Q * val)) : list (Q * val) := filter (fun p => Qle_bool (fst p) t) l.
Lemma decr_later : forall l s, decr s l -> Forall (fun p => fst p <= s) l.
Proof. induction l as [|[t x] r IH]; intros s D; [constructor|]. destruct D as (A & B & C). constructor; auto. eapply Forall_impl; [|apply IH; exact C]. cbn. intros. lra. Qed.
Lemma filter_all : forall A (f : A -> bool) l, (forall a, In a l -> f a = true) -> filter f l = l.
Proof. induction l as [|a r IH]; intro F; cbn; auto. rewrite (F a (or_introl eq_refl)), IH; auto. intros; apply F; right; auto. Qed.
Lemma look_until : forall off l now t, decr now l -> lastval off (until t (rev l)) = look off l t.
Proof.
  intros off l now t D. unfold lastval, until. rewrite <- filter_rev', rev_involutive. revert now D. induction l as [|[s x] r IH]; intros now D; cbn [filter look fst]; auto. destruct D as (A & B & C). destruct (Qle_bool s t); auto. eapply IH; eauto.
Qed.
Definition conv (ty : mtype) (x : val) : val := if ty_any ty then numeric x else x.
Lemma conv_off : forall ty, conv ty (off_of ty) = off_of ty. Proof. destruct ty; reflexivity. Qed.
Definition cur_of (ty : mtype) (n : nat) (P : list (nat * (Q * val))) : list val := fold_left (fun cur p => set_nth (fst p) (conv ty (snd (snd p))) cur) P (repeat (off_of ty) n).
Lemma set_nth_length : forall A i (a : A) l, length (set_nth i a l) = length l.
Proof. induction i as [|i IH]; intros a [|x r]; cbn; auto. Qed.
Lemma set_nth_nth : forall A i (a d : A) l j, (i < length l)%nat -> nth j (set_nth i a l) d = if Nat.eqb i j then a else nth j l d.
Proof. induction i as [|i IH]; intros a d [|x r] [|j] L; cbn in *; auto; try lia. apply IH. lia. Qed.
Lemma cur_length : forall ty n P, length (cur_of ty n P) = n.
Proof. intros ty n P. unfold cur_of. assert (G : forall l, length (fold_left (fun cur p => set_nth (fst p) (conv ty (snd (snd p))) cur) P l) = length l) by (induction P as [|p r IH]; intro l; cbn; auto; rewrite IH, set_nth_length; auto). rewrite G, repeat_length. auto. Qed.
Lemma cur_snoc : forall ty n P p, cur_of ty n (P ++ [p]) = set_nth (fst p) (conv ty (snd (snd p))) (cur_of ty n P).
Proof. intros. unfold cur_of. rewrite fold_left_app. auto. Qed.
Lemma restrict_snoc : forall A (P : list (nat * A)) p i, restrict i (P ++ [p]) = if Nat.eqb (fst p) i then restrict i P ++ [snd p] else restrict i P.
Proof. intros. unfold restrict. rewrite filter_app, map_app. cbn [filter]. destruct (Nat.eqb (fst p) i); cbn; auto. apply app_nil_r. Qed.
Lemma cur_nth : forall ty n P i d, (forall p, In p P -> (fst p < n)%nat) -> (i < n)%nat -> nth i (cur_of ty n P) d = conv ty (lastval (off_of ty) (restrict i P)).
Proof.
  intros ty n P i d F I. induction P as [|[j [t x]] P IH] using rev_ind.
  - cbn. rewrite conv_off. rewrite nth_indep with (d' := off_of ty) by (rewrite repeat_length; auto). apply nth_repeat.
  - rewrite cur_snoc, restrict_snoc. cbn [fst snd]. rewrite set_nth_nth by (rewrite cur_length; apply (F (j, (t, x))); apply in_or_app; right; left; auto). destruct (Nat.eqb j i); [unfold lastval; rewrite rev_app_distr; auto|]. apply IH. intros p Q. apply F. apply in_or_app. auto.
Qed.
Definition early (t : Q) (P : list (nat * (Q * val))) := filter (fun p => Qle_bool (fst (snd p)) t) P.
Lemma restrict_early : forall t P i, restrict i (early t P) = until t (restrict i P).
Proof. intros t P i. unfold restrict, early, until. induction P as [|[j [s x]] r IH]; cbn; auto. destruct (Qle_bool s t) eqn:Q; cbn [filter fst snd]; destruct (Nat.eqb j i) eqn:J; cbn [map filter fst snd]; rewrite ?Q, IH; auto. Qed.
(** the loop: what is read in the result *)
Lemma merge_loop_spec : forall ty n L P cur e e', (0 < n)%nat ->
  cur = cur_of ty n P -> StronglySorted (fun a b : nat * (Q * val) => fst (snd a) <= fst (snd b)) (P ++ L) ->
  (forall t, look (off_of ty) e t = sum_or_off (off_of ty) 0 (cur_of ty n (early t P))) -> (forall s, (forall p, In p P -> fst (snd p) <= s) -> decr s e) ->
  merge_loop ty L cur e = Mok e' ->
  (forall t, look (off_of ty) e' t = sum_or_off (off_of ty) 0 (cur_of ty n (early t (P ++ L)))) /\ (forall s, (forall p, In p (P ++ L) -> fst (snd p) <= s) -> decr s e') /\ (e <> [] \/ L <> [] -> e' <> []).
Proof.
  intros ty n L. induction L as [|[i [t x]] r IH]; intros P cur e e' NP C S LK D E; cbn [merge_loop] in E.
  - injection E as <-. rewrite app_nil_r. split; auto. split; auto. intros [?|?]; auto.
  - destruct (fits ty (sum_or_off (off_of ty) 0 (set_nth i (if ty_any ty then numeric x else x) cur))) eqn:F; [|discriminate].
    assert (EQ : P ++ (i, (t, x)) :: r = (P ++ [(i, (t, x))]) ++ r) by (rewrite <- app_assoc; auto). rewrite EQ in S |- *.
    assert (PT : forall p, In p P -> fst (snd p) <= t). { intros p I. clear - S I. rewrite <- app_assoc in S. induction P as [|q P IH]; [destruct I|]. inversion S as [|? ? S1 F]. subst. destruct I as [<-|I]; [rewrite Forall_forall in F; apply (F (i, (t, x))); apply in_or_app; right; left; auto|auto]. }
    pose proof (D t PT) as DT. assert (CE : set_nth i (if ty_any ty then numeric x else x) cur = cur_of ty n (P ++ [(i, (t, x))])) by (rewrite cur_snoc; subst cur; auto). rewrite CE in E.
    set (e1 := put_last t (sum_or_off (off_of ty) 0 (cur_of ty n (P ++ [(i, (t, x))]))) e) in *.
    assert (A1 : forall u, look (off_of ty) e1 u = sum_or_off (off_of ty) 0 (cur_of ty n (early u (P ++ [(i, (t, x))])))).
    { intro u. unfold e1. rewrite put_look by auto. unfold early. rewrite filter_app. cbn [filter fst snd]. destruct (Qle_bool t u) eqn:U.
      * apply Qle_bool_iff in U. rewrite filter_all; auto. intros p I. apply Qle_bool_iff. apply PT in I. lra.
      * rewrite app_nil_r. apply LK. }
    assert (B1 : forall s, (forall p, In p (P ++ [(i, (t, x))]) -> fst (snd p) <= s) -> decr s e1).
    { intros s SP. assert (TS : t <= s) by (apply (SP (i, (t, x))); apply in_or_app; right; left; auto). eapply decr_le; [apply put_decr; exact DT|auto]. }
    destruct (IH (P ++ [(i, (t, x))]) _ _ e' NP eq_refl S A1 B1 E) as (A & B & G).
    split; auto. split; auto. intros _. apply G. left. unfold e1. destruct (put_head t (sum_or_off (off_of ty) 0 (cur_of ty n (P ++ [(i, (t, x))]))) e) as (s & r0 & ->). discriminate.
Qed.
Lemma sum_or_off_spec : forall off l s, (exists x, In x l /\ veqb x off = true) /\ sum_or_off off s l = off \/ (forall x, In x l -> veqb x off = false) /\ exists q, sum_or_off off s l = Num q /\ q == s + sumQ (map numq l).
Proof.
  intros off. induction l as [|x r IH]; intro s; cbn [sum_or_off].
  - right. split; [intros x []|]. exists s. split; auto. cbn. ring.
  - destruct (veqb x off) eqn:E; [left; split; auto; exists x; split; auto; left; auto|]. destruct (IH (s + numq x)) as [[(y & Y1 & Y2) ->]|[A (q & -> & B)]].
    + left. split; auto. exists y. split; auto. right. auto.
    + right. split; [intros y [<-|Y]; auto|]. exists q. split; auto. cbn [map sumQ]. rewrite B. ring.
Qed.

Lemma call_entries : forall v m t, m_stats m = false -> m_level m = true -> decr (v_now v) (m_e m) -> m_e m <> [] -> ~ t + v_off v == v_now v -> call (Some t) v m = Mok (look (m_off m) (m_e m) (t + v_off v)).
Proof.
  intros v m t S L D NE0 NE. unfold call. rewrite L, S. cbn [negb]. destruct (Qeq_bool (t + v_off v) (v_now v)) eqn:Q; [apply Qeqb_true in Q; tauto|]. clear Q NE. set (u := t + v_off v). clearbody u.
  destruct (C54_searchsorted (map fst (rev (m_e m))) u (decr_sorted _ _ D)) as [_ (n & E & LN & A & B)]. cbn [searchsorted] in E. unfold bisect_right in E.
  assert (LL : List.length (map fst (rev (m_e m))) = List.length (m_e m)) by (rewrite map_length, rev_length; auto). rewrite LL in *. rewrite E.
  pose proof (look_nth (m_off m) _ _ u n D LN A B) as X. destruct (m_e m) as [|p0 r0] eqn:HD; [tauto|]. rewrite <- HD in *. destruct (rev (m_e m)) as [|[t0 x0] rr] eqn:R; [apply (f_equal (@List.length _)) in R; rewrite rev_length, HD in R; cbn in R; lia|].
  destruct (Qltb u t0) eqn:U.
  - apply Qltb_iff in U. destruct n as [|i]; [rewrite X; auto|]. pose proof (A 0%nat ltac:(lia)) as Y. cbn in Y. lra.
  - apply Qltb_false_iff in U. destruct n as [|i].
    + pose proof (B 0%nat ltac:(lia)) as Y. cbn in Y. rewrite HD in Y. cbn in Y. specialize (Y ltac:(lia)). lra.
    + destruct X as (s & ->). auto.
Qed.
(** the values in the history of a level monitor are values *)
Definition said (e : happening) (P : val -> Prop) : Prop := match e with HMade x _ => P x | HTally x _ => P x | _ => True end.
Lemma create_type : forall level ty stats on init v m, create level ty stats on init v = (m, Mok tt) -> value_ok (mkMon level ty stats false on init 0 0 [] WNo 0 acc0 acc0 []) init -> m_type m = ty /\ m_level m = level.
Proof.
  intros level ty stats on init v m E OK. unfold create in E. edestruct start_inv with (v := v) (h := @nil (Q * happening)) (e := HMade (if level then init else Num 0) on) (mo := Some on) (so := @None bool) (m := mkMon level ty stats false on (if level then init else Num 0) (v_now v) (v_now v) [] WNo (v_now v) acc0 acc0 []) as (m' & E' & I & L & T & _); auto.
  + cbn [m_level m_type m_tally]. intro L. destruct OK as [A B]. cbn [m_level m_type] in *. rewrite L in *. auto.
  + rewrite E in E'. injection E' as <-. auto.
Qed.
Lemma traced_values : forall v m h, traced v m h -> m_level m = true -> Forall (fun p => said (snd p) (value_ok m)) h /\ exists a s x b, h = a ++ [(s, HMade x b)].
Proof.
  induction 1 as [level ty stats on init v m C V|v m h o v' m' T IH OK E|v m h o v' m' e T IH OK E]; intro L.
  - assert (TY : m_type m = ty /\ m_level m = level). { eapply create_type; eauto. } destruct TY as [TY LV]. split; [|exists [], (v_now v), (if level then init else Num 0), on; auto]. constructor; [|constructor]. cbn [snd said]. rewrite L in LV. subst level. unfold value_ok, m_off in *. rewrite TY, L. cbn [m_type m_level] in V. auto.
  - pose proof (mexec_type o v m h _ _ (traced_inv _ _ _ T) OK E) as [TY LV]. cbn [snd] in TY, LV. rewrite LV in L. destruct (IH L) as [F (a & s & x & b & EQ)].
    assert (VO : forall x, value_ok m x -> value_ok m' x) by (intros y Y; unfold value_ok, m_off in *; rewrite TY, LV; auto).
    assert (F' : Forall (fun p => said (snd p) (value_ok m')) h) by (eapply Forall_impl; [|exact F]; intros [? []]; cbn; auto).
    destruct o; cbn [note_op]; try (split; [auto|exists a, s, x, b; auto]; fail); (split; [constructor; auto; cbn; auto|subst h; eexists (_ :: a), s, x, b; reflexivity]). destruct OK as [OK _]. auto.
  - pose proof (mexec_type o v m h _ _ (traced_inv _ _ _ T) OK E) as [TY LV]. cbn [snd] in TY, LV. rewrite LV in L. destruct (IH L) as [F EX]. split; auto. eapply Forall_impl; [|exact F]; intros [? []]; cbn; auto; intro Y; unfold value_ok, m_off in *; rewrite TY, LV; auto.
Qed.

Lemma value_said : forall a s x b P, Forall (fun p => said (snd p) P) (a ++ [(s, HMade x b)]) -> P (value_of (a ++ [(s, HMade x b)])).
Proof. induction a as [|[t e] a IH]; intros s x b P F; cbn [app] in *; inversion F as [|? ? F1 F2]; subst; [auto|]. destruct e; cbn [value_of]; auto; apply IH; auto. Qed.
Lemma level_ok : forall v m h u x, traced v m h -> m_level m = true -> level_at h u = Some x -> value_ok m x.
Proof.
  intros v m h u x T L E. destruct (traced_values v m h T L) as [F (a & s & y & b & ->)]. clear T. induction a as [|[t e] a IH]; cbn [app level_at] in *.
  - destruct (Qle_bool s u); [|discriminate]. cbn [on_of value_of] in E. destruct b; [|discriminate]. injection E as <-. inversion F. auto.
  - destruct (Qle_bool t u).
    + destruct (on_of _); [|discriminate]. injection E as <-. exact (value_said ((t, e) :: a) s y b _ F).
    + destruct (starts e); [discriminate|]. apply IH; auto. inversion F. auto.
Qed.
Lemma decr_ascending : forall l now, decr now l -> StronglySorted (fun a b : Q * val => fst a <= fst b) (rev l).
Proof.
  intros l now D. apply (sorted_rev _ (fun a b : Q * val => fst b <= fst a)). revert now D. induction l as [|[s x] r IH]; intros now D; [constructor|]. destruct D as (A & B & C). constructor; [eapply IH; eauto|]. apply decr_later in C. exact C.
Qed.
Lemma sorted_map_snd : forall A B (R : B -> B -> Prop) (l : list (A * B)), StronglySorted R (map snd l) -> StronglySorted (fun a b => R (snd a) (snd b)) l.
Proof. induction l as [|p r IH]; intro S; cbn in *; [constructor|]. inversion S as [|? ? S1 F]. subst. constructor; auto. rewrite Forall_forall in *. intros q I. apply F. apply in_map. auto. Qed.
Lemma num_conv : forall tm ty x, tm = ty \/ ty = TAny -> fits tm x = true -> veqb x (off_of ty) = false -> numq (conv ty x) = number x /\ veqb (conv ty x) (off_of ty) = false.
Proof. intros tm [| |lo hi o] [q| |i [q|]] [-> |E] F O; cbn in *; try discriminate; auto. Qed.
(** the level of the result: the levels added, or off when one of them is off *)
Theorem C43_level : forall v self ms hs m' t, merging v true (self :: ms) hs -> merge self ms v = Mok m' -> (forall m, In m (self :: ms) -> m_off m = m_off m') -> t + v_off v < v_now v ->
  exists y, call (Some t) v m' = Mok y /\ match added (map (fun h => level_at h (t + v_off v)) hs) with Some q => exists q', y = Num q' /\ q' == q | None => y = m_off m' end.
Proof.
  intros v self ms hs m' t M E ST LT. destruct (merging_checks _ _ _ _ _ M) as (C1 & C2 & C3). unfold merge in E. rewrite C1, C2, C3 in E. set (all := self :: ms) in *. set (ty := merged_type (m_type self) (m_type self) ms) in *.
  set (n := length all) in *. set (L := hmerge fst (map (fun m => rev (m_e m)) all)) in *. destruct (merge_loop ty L (repeat (off_of ty) n) []) as [e|] eqn:ML; [|discriminate].
  assert (NP : (0 < n)%nat) by (unfold n, all; cbn; lia).
  assert (LEV : forall m, In m all -> exists h, Lev v m h) by (intros m I; destruct (merging_in _ _ _ _ m M I) as (h & A & B & C); exists h; apply (mi_lev _ _ _ (traced_inv _ _ _ A) B C)).
  assert (SL : StronglySorted (fun a b : nat * (Q * val) => fst (snd a) <= fst (snd b)) L).
  { apply (sorted_map_snd _ _ (fun a b : Q * val => fst a <= fst b)). apply (hmerge_sorted (A := Q * val) fst). apply Forall_forall. intros l I. apply in_map_iff in I. destruct I as (m & <- & I). destruct (LEV m I) as [h V]. eapply decr_ascending. apply (lv_decr _ _ _ V). }
  assert (LN : forall p, In p L -> fst (snd p) <= v_now v).
  { intros [i [s x]] I. cbn. assert (J : In (s, x) (concat (map (fun m => rev (m_e m)) all))) by (eapply Permutation_in; [apply (hmerge_perm (A := Q * val) fst)|]; apply in_map_iff; exists (i, (s, x)); split; auto). apply in_concat in J. destruct J as (l & J1 & J2). apply in_map_iff in J1. destruct J1 as (m & <- & J1). destruct (LEV m J1) as [h V]. apply in_rev in J2. eapply decr_all; [apply (lv_decr _ _ _ V)|exact J2]. }
  destruct (merge_loop_spec ty n L [] (repeat (off_of ty) n) [] e NP) as (R1 & R2 & R3); auto.
  { intro u. cbn. destruct n; [lia|]. cbn. rewrite veqb_refl. auto. } { intros. exact Logic.I. }
  cbn [app] in R1, R2, R3. assert (NL : L <> []). { intro Z. destruct (LEV self (or_introl eq_refl)) as [h V]. destruct (lv_head _ _ _ V) as (s & r & HD). pose proof (hmerge_restrict (A := Q * val) fst (map (fun m => rev (m_e m)) all) 0 (rev (m_e self)) eq_refl) as RR. fold L in RR. rewrite Z in RR. apply (f_equal (@length _)) in RR. rewrite rev_length, HD in RR. cbn in RR. lia. }
  specialize (R3 (or_intror NL)). specialize (R2 _ LN). destruct (rev e) as [|[t0 x0] rr] eqn:RE; [discriminate|].
  destruct (fresh_level ty v) as (F1 & F2 & F3 & F4 & F5 & F6). destruct (finish_fields v (fresh true ty v) t0 e m' F1 F2 F3 R3 E) as (TY & SS & LL & ME & _). clear E. set (e2 := put_last (v_now v) (off_of ty) e).
  assert (OFF' : m_off m' = off_of ty) by (unfold m_off; rewrite TY, F4; auto). assert (ME' : m_e m' = e2) by (rewrite ME; unfold m_off, e2; rewrite F4; auto). clear ME F1 F2 F3 F4 F5 F6 TY. rename ME' into ME. rewrite OFF' in ST.
  assert (TT : forall m, In m all -> m_type m = ty \/ ty = TAny) by (intros m I; destruct (merged_cases (m_type self) ms) as [[A B]|A]; [left; unfold ty; rewrite A; destruct I as [<-|I]; auto|auto]).
  rewrite (call_entries v m' t SS LL); [|rewrite ME; apply put_decr; exact R2|rewrite ME; unfold e2; destruct (put_head (v_now v) (off_of ty) e) as (s & r & ->); discriminate|lra].
  eexists. split; [reflexivity|]. set (u := t + v_off v) in *. rewrite OFF', ME. unfold e2. rewrite put_look by auto. assert (NU : Qle_bool (v_now v) u = false) by (apply Qle_bool_false_iff; auto). rewrite NU, R1.
  assert (CUR : cur_of ty n (early u L) = map (fun m => conv ty (look (off_of ty) (m_e m) u)) all).
  { apply nth_ext with (d := Num 0) (d' := Num 0); [rewrite cur_length, map_length; auto|]. intros i I. rewrite cur_length in I. rewrite cur_nth; auto.
    - rewrite restrict_early. destruct (nth_error all i) as [m|] eqn:NI; [|apply nth_error_None in NI; lia]. unfold L. rewrite (hmerge_restrict (A := Q * val) fst (map (fun m => rev (m_e m)) all) i (rev (m_e m))) by (rewrite nth_error_map, NI; auto).
      destruct (LEV m (nth_error_In _ _ NI)) as [h V]. rewrite (look_until (off_of ty) (m_e m) (v_now v) u) by apply (lv_decr _ _ _ V). symmetry. rewrite nth_indep with (d' := conv ty (look (off_of ty) (m_e m) u)) by (rewrite map_length; auto). rewrite (map_nth (fun m => conv ty (look (off_of ty) (m_e m) u)) all m i). erewrite nth_error_nth; eauto.
    - intros p P. apply filter_In in P. destruct P as [P _]. apply (hmerge_index (A := Q * val) fst) in P. rewrite map_length in P. auto. }
  rewrite CUR. destruct (sum_or_off_spec (off_of ty) (map (fun m => conv ty (look (off_of ty) (m_e m) u)) all) 0) as [[(x & X1 & X2) ->]|[A (q & -> & B)]].
  - assert (AD : added (map (fun h => level_at h u) hs) = None). { clear - M ST TT X1 X2. clearbody all. induction M as [|m h l k (A & B & C) F IH]; [destruct X1|]. cbn [map added]. pose proof (mi_lev _ _ _ (traced_inv _ _ _ A) B C) as V. pose proof (lv_look _ _ _ V u) as LK. rewrite (ST m (or_introl eq_refl)) in LK. destruct X1 as [<-|X1].
      + destruct (level_at h u) as [y|] eqn:LA; auto. exfalso. destruct (level_ok v m h u y A C LA) as [V1 V2]. rewrite C in V2. rewrite (ST m (or_introl eq_refl)) in V2. rewrite LK in X2. destruct (num_conv (m_type m) ty y (TT m (or_introl eq_refl)) V1 V2) as [_ V3]. congruence.
      + destruct (level_at h u); auto. rewrite IH; auto; intros; (apply TT || apply ST); right; auto. }
    rewrite AD. auto.
  - assert (AD : exists s, added (map (fun h => level_at h u) hs) = Some s /\ s == sumQ (map numq (map (fun m => conv ty (look (off_of ty) (m_e m) u)) all))).
    { clear - M ST TT A. clearbody all. induction M as [|m h l k (A1 & B1 & C1) F IH]; [exists 0; split; [auto|reflexivity]|]. cbn [map added sumQ]. pose proof (mi_lev _ _ _ (traced_inv _ _ _ A1) B1 C1) as V. pose proof (lv_look _ _ _ V u) as LK. rewrite (ST m (or_introl eq_refl)) in LK. rewrite LK.
      destruct IH as (s & -> & S2); [intros; (apply TT || apply ST); right; auto|intros; (apply TT || apply ST); right; auto|intros; apply A; right; auto|].
      destruct (level_at h u) as [y|] eqn:LA.
      - eexists. split; [reflexivity|]. destruct (level_ok v m h u y A1 C1 LA) as [V1 V2]. rewrite C1 in V2. rewrite (ST m (or_introl eq_refl)) in V2. destruct (num_conv (m_type m) ty y (TT m (or_introl eq_refl)) V1 V2) as [V3 _]. rewrite V3, S2. reflexivity.
      - exfalso. specialize (A (conv ty (look (off_of ty) (m_e m) u)) (or_introl eq_refl)). rewrite LK, conv_off, veqb_refl in A. discriminate. }
    destruct AD as (s & -> & S2). exists q. split; auto. rewrite B, S2. ring.
Qed.
(** it never fails for monitors of type any and float *)
Lemma finish_ok : forall v new t0 e, m_stats new = false -> m_gen new = false -> m_level new = true -> e <> [] -> exists m', finish v (set_start t0 (set_e e new)) = Mok m'.
Proof. intros v new t0 e S G L NE. rewrite finish_level by (cbn [set_start set_e m_stats m_gen m_level m_e]; auto). eexists. reflexivity. Qed.
Lemma merge_loop_ok : forall ty l c e, (forall lo hi o, ty <> TInt lo hi o) -> exists e', merge_loop ty l c e = Mok e' /\ (l <> [] \/ e <> [] -> e' <> []).
Proof.
  intros ty l. induction l as [|[i [t x]] r IH]; intros c e NI; cbn [merge_loop]; [eexists; split; [reflexivity|]; intros [A|A]; auto|]. cbv zeta. set (c' := set_nth _ _ _).
  assert (F : fits ty (sum_or_off (off_of ty) 0 c') = true). { destruct (sum_or_off_spec (off_of ty) c' 0) as [[_ ->]|[_ (q & -> & _)]]; destruct ty; auto; exfalso; eapply NI; eauto. }
  rewrite F. destruct (IH c' (put_last t (sum_or_off (off_of ty) 0 c') e) NI) as (e' & E & N). exists e'. split; auto. intros _. apply N. right. destruct (put_head t (sum_or_off (off_of ty) 0 c') e) as (s & k & ->). discriminate.
Qed.
Theorem C43_level_ok : forall v self ms hs, merging v true (self :: ms) hs -> (forall lo hi o, m_type self <> TInt lo hi o) -> exists m', merge self ms v = Mok m'.
Proof.
  intros v self ms hs M NI. destruct (merging_checks _ _ _ _ _ M) as (C1 & C2 & C3). unfold merge. rewrite C1, C2, C3. set (ty := merged_type (m_type self) (m_type self) ms). set (L := hmerge fst _).
  assert (NT : forall lo hi o, ty <> TInt lo hi o) by (unfold ty; destruct (merged_cases (m_type self) ms) as [[-> _]|E]; [auto|rewrite E; discriminate]).
  destruct (merge_loop_ok ty L (repeat (off_of ty) (length (self :: ms))) [] NT) as (e & -> & NE).
  assert (NL : L <> []).
  { intro Z. destruct (merging_in _ _ _ _ self M (or_introl eq_refl)) as (h & A & B & C). pose proof (mi_lev _ _ _ (traced_inv _ _ _ A) B C) as V. destruct (lv_head _ _ _ V) as (s & r & HD).
    pose proof (hmerge_restrict (A := Q * val) fst (map (fun m => rev (m_e m)) (self :: ms)) 0 (rev (m_e self)) eq_refl) as RR. fold L in RR. rewrite Z in RR. apply (f_equal (@length _)) in RR. rewrite rev_length, HD in RR. cbn in RR. lia. }
  specialize (NE (or_introl NL)). destruct (rev e) as [|[t0 x0] rr] eqn:RE; [apply (f_equal (@rev _)) in RE; rewrite rev_involutive in RE; tauto|].
  destruct (fresh_level ty v) as (F1 & F2 & F3 & _). apply finish_ok; auto.
Qed.

Lemma pair_merging : forall v level m1 h1 m2 h2, traced v m1 h1 -> traced v m2 h2 -> m_stats m1 = false /\ m_level m1 = level -> m_stats m2 = false /\ m_level m2 = level -> merging v level [m1; m2] [h1; h2].
Proof. intros v level m1 h1 m2 h2 T1 T2 [A B] [C D]. constructor; [auto|]. constructor; [auto|constructor]. Qed.
(** two monitors, one with weights *)
Definition story11 := story false TAny false true (Num 0) [OTally (Num 4) 3; OTick 2; OTally (Num 1) 1; OTick 2].
Definition story12 := story false TFloat false true (Num 0) [OTick 1; OTally (Num 7) 1; OTick 2; OMonitor false; OTally (Num 8) 1; OTick 1].
Lemma on_merging : merging (sv story11) false [sm story11; sm story12] [sh story11; sh story12].
Proof.
  assert (E : sv story11 = sv story12) by (vm_compute; reflexivity). apply pair_merging; [apply story_after; vm_compute; reflexivity|rewrite E; apply story_after; vm_compute; reflexivity|vm_compute; auto|vm_compute; auto].
Qed.
Example C43_case : merging (sv story11) false [sm story11; sm story12] [sh story11; sh story12] /\
  match merge (sm story11) [sm story12] (sv story11) with Mok m => rev (m_e m) = [(0, Num 4); (1, Num 7); (2, Num 1)] /\ match m_w m with WList w => rev w = [3; 1; 1] | _ => False end | Mer _ => False end.
Proof. split; [apply on_merging|]. vm_compute. split; reflexivity. Qed.
(** two level monitors: 3 from 0, 5 from 2, off from 4, on (7) from 6; 10 from 0, 20 from 3 *)
Definition story13 := story true TAny false true (Num 10) [OTick 3; OTally (Num 20) 1; OTick 5].
Lemma level_merging : merging (sv story1) true [sm story1; sm story13] [sh story1; sh story13].
Proof.
  assert (E : sv story1 = sv story13) by (vm_compute; reflexivity). apply pair_merging; [apply story_after; vm_compute; reflexivity|rewrite E; apply story_after; vm_compute; reflexivity|vm_compute; auto|vm_compute; auto].
Qed.
Example C43_case_level : merging (sv story1) true [sm story1; sm story13] [sh story1; sh story13] /\ (forall lo hi o, m_type (sm story1) <> TInt lo hi o) /\ v_now (sv story1) == 8 /\
  match merge (sm story1) [sm story13] (sv story1) with Mok m => m_off (sm story1) = m_off m /\ m_off (sm story13) = m_off m /\ map (fun t => call (Some t) (sv story1) m) [-1; 0; 1; 2; 3; 4; 5; 6; 7] =
    [Mok NegInf; Mok (Num 13); Mok (Num 13); Mok (Num 15); Mok (Num 25); Mok NegInf; Mok NegInf; Mok (Num 27); Mok (Num 27)] | Mer _ => False end.
Proof. split; [apply level_merging|]. split; [vm_compute; discriminate|]. split; [reflexivity|]. vm_compute. repeat (split; [reflexivity|]). reflexivity. Qed.

(** the level of the result at the present time is 0, whatever the levels are *)
Theorem C43_now_refuted : exists v self ms hs m', merging v true (self :: ms) hs /\ merge self ms v = Mok m' /\ call None v m' = Mok (Num 0) /\ added (map (fun h => level_at h (v_now v)) hs) = Some 27.
Proof.
  exists (sv story1), (sm story1), [sm story13], [sh story1; sh story13]. set (r := merge _ _ _). vm_compute in r. subst r. eexists. split; [apply level_merging|]. split; [reflexivity|]. split; vm_compute; reflexivity.
Qed.
(** a monitor of type int8 and one of type any: the first is off until 2, and its off value -128 is added *)
Definition story14 := story true ty_int8 false false (Num 1) [OTick 2; OMonitor true; OTick 1].
Definition story15 := story true TAny false true (Num 10) [OTick 3].
Theorem C43_mixed_refuted : exists v self ms hs m', merging v true (self :: ms) hs /\ merge self ms v = Mok m' /\ call (Some 1) v m' = Mok (Num (-(118))) /\ added (map (fun h => level_at h 1) hs) = None.
Proof.
  exists (sv story14), (sm story14), [sm story15], [sh story14; sh story15]. set (r := merge _ _ _). vm_compute in r. subst r. eexists. split; [|split; [reflexivity|]; split; vm_compute; reflexivity].
  assert (E : sv story14 = sv story15) by (vm_compute; reflexivity). apply pair_merging; [apply story_after; vm_compute; reflexivity|rewrite E; apply story_after; vm_compute; reflexivity|vm_compute; auto|vm_compute; auto].
Qed.
(** two monitors of type int8: the sum of the levels does not fit *)
Definition story16 := story true ty_int8 false true (Num 100) [OTick 3].
Theorem C43_overflow_refuted : exists v self ms hs, merging v true (self :: ms) hs /\ merge self ms v = Mer MFit.
Proof.
  exists (sv story16), (sm story16), [sm story16], [sh story16; sh story16]. split; [|vm_compute; reflexivity].
  apply pair_merging; [apply story_after; vm_compute; reflexivity|apply story_after; vm_compute; reflexivity|vm_compute; auto|vm_compute; auto].
Qed.

Print Assumptions C43_plain.
Print Assumptions C43_statistics.
Print Assumptions C43_level.
Print Assumptions C43_level_ok.
Print Assumptions C43_now_refuted.
Print Assumptions C43_mixed_refuted.
Print Assumptions C43_overflow_refuted.
