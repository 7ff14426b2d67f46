(** C91: samples of an external distribution are those that the distribution returned. *)
From Coq Require Import QArith List Permutation Lia.
From Verif Require Import External.
Import ListNotations.
Open Scope Q_scope.

(** ** What was returned by the first k calls *)
Definition values (r : reply) : list Q := match r with One v => [v] | Array l => l end.
Fixpoint returned (d : dis) (from k : nat) : list Q := match k with O => [] | S k => values (draw d from) ++ returned d (S from) k end.
Definition never_empty (d : dis) : Prop := forall k, values (draw d k) <> [].

(** ** Proofs *)
Lemma pop_last : forall l v, pop (l ++ [v]) = Some (v, l). Proof. intros l v. unfold pop. rewrite rev_app_distr. cbn. rewrite rev_involutive. reflexivity. Qed.
Lemma take_app : forall d m n e, take d (m + n) e = match take d m e with Some (l, e') => match take d n e' with Some (l', e'') => Some (l ++ l', e'') | None => None end | None => None end.
Proof.
  intros d m n. induction m as [|m IH]; intros e; [cbn; destruct (take d n e) as [(l, e')|]; reflexivity|]. cbn [Nat.add take]. destruct (sample d e) as [(v, e1)|]; [|reflexivity]. rewrite IH. destruct (take d m e1) as [(l, e2)|]; [|reflexivity]. destruct (take d n e2) as [(l', e3)|]; reflexivity.
Qed.
Lemma take_stock : forall d l e, samples e = l -> take d (length l) e = Some (map (fun v => v * factor e) (rev l), mkExternal (calls e) [] (factor e) (args e) (kwargs e)).
Proof.
  intros d l. induction l as [|v l IH] using rev_ind; intros e E; [destruct e; cbn in *; subst; reflexivity|].
  rewrite app_length, Nat.add_comm. cbn [length Nat.add take]. unfold sample. rewrite E. destruct (l ++ [v]) as [|x y] eqn:X; [destruct l; discriminate X|]. rewrite <- X in *. rewrite E, pop_last. rewrite (IH (mkExternal (calls e) l (factor e) (args e) (kwargs e)) eq_refl). rewrite rev_app_distr. reflexivity.
Qed.
Lemma sample_fetch : forall d e, samples e = [] -> values (draw d (calls e)) <> [] -> sample d e = sample d (mkExternal (S (calls e)) (values (draw d (calls e))) (factor e) (args e) (kwargs e)).
Proof. intros d e E N. unfold sample. rewrite E. cbn [samples calls factor args kwargs]. change (tolist (draw d (calls e))) with (values (draw d (calls e))). destruct (values (draw d (calls e))) as [|x y] eqn:X; [contradiction|]. reflexivity. Qed.
Lemma take_batch : forall d e, samples e = [] -> values (draw d (calls e)) <> [] ->
  take d (length (values (draw d (calls e)))) e = Some (map (fun v => v * factor e) (rev (values (draw d (calls e)))), mkExternal (S (calls e)) [] (factor e) (args e) (kwargs e)).
Proof.
  intros d e E N. pose proof (take_stock d (values (draw d (calls e))) (mkExternal (S (calls e)) (values (draw d (calls e))) (factor e) (args e) (kwargs e)) eq_refl) as T.
  destruct (values (draw d (calls e))) as [|x y] eqn:X; [contradiction|]. cbn [length take] in *. rewrite (sample_fetch d e E) by (rewrite X; discriminate). rewrite X. exact T.
Qed.
Lemma take_batches : forall d k e, never_empty d -> samples e = [] -> exists l, take d (length (returned d (calls e) k)) e = Some (l, mkExternal (k + calls e) [] (factor e) (args e) (kwargs e)) /\ Permutation l (map (fun v => v * factor e) (returned d (calls e) k)).
Proof.
  intros d k. induction k as [|k IH]; intros e NE E; [exists []; destruct e; cbn in *; subst; auto|]. cbn [returned]. rewrite app_length, take_app, (take_batch d e E (NE _)).
  destruct (IH (mkExternal (S (calls e)) [] (factor e) (args e) (kwargs e)) NE eq_refl) as (l & T & P). cbn [calls factor args kwargs] in *. rewrite T. eexists. split; [f_equal; f_equal; f_equal; lia|].
  rewrite map_app. apply Permutation_app; [|exact P]. apply Permutation_map. symmetry. apply Permutation_rev.
Qed.

(** ** Theorems *)
(** all values that were returned are used, each exactly once, in the time unit of the model; a call is only done when all were used *)
Theorem C91_once : forall d f a kw k, never_empty d -> exists l e, take d (length (returned d 0 k)) (init f a kw) = Some (l, e) /\ Permutation l (map (fun v => v * f) (returned d 0 k)) /\ calls e = k /\ samples e = [].
Proof. intros d f a kw k NE. destruct (take_batches d k (init f a kw) NE eq_refl) as (l & T & P). eexists. eexists. split; [exact T|]. split; [exact P|]. cbn. split; [lia | reflexivity]. Qed.
(** there is always a next sample, and it is one of the values *)
Theorem C91_sample : forall d e, never_empty d -> exists v e', sample d e = Some (v, e') /\ exists w, v = w * factor e /\ (In w (samples e) \/ (samples e = [] /\ In w (values (draw d (calls e))))).
Proof.
  intros d e NE. destruct (samples e) as [|x l] eqn:E.
  - rewrite (sample_fetch d e E (NE _)). pose proof (NE (calls e)) as N. destruct (exists_last N) as (l & v & X). unfold sample. cbn [samples calls factor args kwargs]. rewrite X. destruct (l ++ [v]) as [|x y] eqn:Y; [destruct l; discriminate Y|]. rewrite <- Y in *. rewrite Y. cbn [samples]. rewrite <- Y, pop_last. eexists. eexists. split; [reflexivity|]. exists v. split; [reflexivity|]. right. split; [reflexivity | apply in_or_app; right; left; reflexivity].
  - destruct (exists_last (l := x :: l) ltac:(discriminate)) as (l' & v & X). unfold sample. rewrite E, E, X, pop_last. eexists. eexists. split; [reflexivity|]. exists v. split; [reflexivity|]. left. apply in_or_app. right. left. reflexivity.
Qed.
(** one value at a time: in the order in which they were returned *)
Theorem C91_order_partial : forall d f a kw n, (forall k, length (values (draw d k)) = 1%nat) -> exists e, take d n (init f a kw) = Some (map (fun v => v * f) (returned d 0 n), e).
Proof.
  intros d f a kw n H. assert (G : forall n e, samples e = [] -> exists e', take d n e = Some (map (fun v => v * factor e) (returned d (calls e) n), e')).
  { clear n. induction n as [|n IH]; intros e E; [eexists; reflexivity|]. pose proof (H (calls e)) as L. assert (NE : values (draw d (calls e)) <> []) by (destruct (values (draw d (calls e))); [discriminate L | discriminate]).
    pose proof (take_batch d e E NE) as TB. rewrite L in TB. pose proof (take_app d 1 n e) as TA. cbn [Nat.add] in TA. rewrite TA, TB. clear TA TB.
    destruct (IH (mkExternal (S (calls e)) [] (factor e) (args e) (kwargs e)) eq_refl) as (e' & T). cbn [calls factor] in T. rewrite T. exists e'. cbn [returned]. destruct (values (draw d (calls e))) as [|v [|w r]]; try discriminate L. reflexivity. }
  destruct (G n (init f a kw) eq_refl) as (e & T). exists e. exact T.
Qed.
(** if all parameters are given by keyword, then the mean is that of the distribution, or it is not known (nan), for other functions than those of scipy *)
Theorem C91_mean_partial : forall d e v, args e = [] -> (mean d e = Some v <-> is_scipy d = true /\ v = law_mean d (args e) (kwargs e) * factor e).
Proof. intros d e v A. unfold mean. rewrite A. destruct (is_scipy d); split; intros H; [injection H as <-; auto | destruct H as (_ & ->); reflexivity | discriminate H | destruct H; discriminate]. Qed.
(** ** Cases *)
Definition three (k : nat) : list Q := [inject_Z (Z.of_nat (3 * k)); inject_Z (Z.of_nat (3 * k + 1)); inject_Z (Z.of_nat (3 * k + 2))].
Definition by3 : dis := mkDis (fun k => Array (three k)) (fun a k => hd 0 (a ++ k)) true.
Definition by1 : dis := mkDis (fun k => One (inject_Z (Z.of_nat k))) (fun a k => hd 0 (a ++ k)) true.
Example C91_case : never_empty by3 /\ returned by3 0 2 = [0; 1; 2; 3; 4; 5] /\ option_map (fun p => map Qred (fst p)) (take by3 6 (init 60 [] [])) = Some [120; 60; 0; 300; 240; 180].
Proof. split; [intros k; discriminate|]. split; vm_compute; reflexivity. Qed.
Example C91_case1 : option_map (fun p => map Qred (fst p)) (take by1 4 (init 60 [] [])) = Some [0; 60; 120; 180] /\ mean by1 (init 60 [] [5]) = Some (5 * 60).
Proof. split; vm_compute; reflexivity. Qed.
(** *** Refuted *)
(** the values are used in the order in which they were returned, so size= makes no difference: within an array they are used backwards *)
Theorem C91_order_refuted : exists d f n, never_empty d /\ exists l e, take d n (init f [] []) = Some (l, e) /\ l <> map (fun v => v * f) (firstn n (returned d 0 n)).
Proof. exists by3, 1, 3%nat. split; [intros k; discriminate|]. eexists. eexists. split; [vm_compute; reflexivity|]. vm_compute. discriminate. Qed.
(** the mean is that of the distribution with its parameters: positional parameters are ignored *)
Theorem C91_mean_refuted : exists d e v, is_scipy d = true /\ mean d e = Some v /\ ~ v == law_mean d (args e) (kwargs e) * factor e.
Proof. exists by1, (init 1 [5] []), (0 * 1). split; [reflexivity|]. split; [reflexivity|]. vm_compute. discriminate. Qed.
Print Assumptions C91_once. Print Assumptions C91_sample. Print Assumptions C91_order_partial. Print Assumptions C91_mean_partial. Print Assumptions C91_order_refuted. Print Assumptions C91_mean_refuted.
