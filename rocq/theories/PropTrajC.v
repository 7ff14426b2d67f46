(** C66: merged trajectories. Specification: the pieces follow each other; at a moment within a piece the position is that of the piece, as if it had started when the previous ones are over. *)
From Coq Require Import Reals Lra Psatz List Lia.
Import ListNotations.
From Verif Require Import Traj TrajP PropTraj PropTrajB.
Open Scope R_scope.

(** ** specification *)
Definition total (f : traj -> R) (ts : list traj) : R := fold_left (fun s tr => s + f tr) ts 0.
(** when the k-th piece starts and ends if the first starts at s *)
Definition piece_start (s : R) (ts : list traj) (k : nat) : R := s + total duration (firstn k ts).
(** t is a moment of the k-th piece (the first one also before the start, the last one also after the end) *)
Definition during (s : R) (ts : list traj) (k : nat) (t : R) : Prop :=
  (k = 0%nat \/ piece_start s ts k < t) /\ (S k = List.length ts \/ t < piece_start s ts (S k)).
Definition simple (tr : traj) : Prop := match tr with Merged _ _ _ _ _ => False | _ => True end.

(** ** lemmas *)
Lemma total_from f ts c : fold_left (fun s tr => s + f tr) ts c = c + total f ts.
Proof. unfold total. revert c; induction ts as [|x r IH]; intros c; cbn; [lra|]. rewrite IH, (IH (0 + f x)). lra. Qed.
Lemma total_cons f x r : total f (x :: r) = f x + total f r.
Proof. unfold total at 1. cbn. rewrite total_from. lra. Qed.
Lemma total_sum f ts : sum_of f ts = total f ts.
Proof. induction ts as [|x r IH]; [reflexivity|]. rewrite total_cons, <- IH. reflexivity. Qed.
Lemma total_app f a b : total f (a ++ b) = total f a + total f b.
Proof. induction a as [|x r IH]; cbn [app]; [unfold total at 2; cbn; lra|]. rewrite !total_cons, IH. lra. Qed.
Lemma runs_len f c ts : List.length (runs f c ts) = List.length ts.
Proof. revert c; induction ts; intros; cbn; auto. Qed.
Lemma runs_nth f c ts k : (k < List.length ts)%nat -> nthR k (runs f c ts) = c + total f (firstn k ts).
Proof.
  revert c k; induction ts as [|x r IH]; intros c k Hk; cbn in Hk; [lia|]. destruct k; [cbn; unfold total; cbn; lra|]. cbn [runs firstn]. rewrite total_cons. change (nthR (S k) (c :: runs f (c + f x) r)) with (nthR k (runs f (c + f x) r)). rewrite IH by lia. lra.
Qed.
Lemma runs_last f c ts : ts <> [] -> lastR (runs f c ts) = c + total f (removelast ts).
Proof.
  revert c; induction ts as [|x [|y r] IH]; intros c H; [congruence|cbn; unfold total; cbn; lra|]. change (runs f c (x :: y :: r)) with (c :: runs f (c + f x) (y :: r)). unfold lastR in *.
  change (last (c :: runs f (c + f x) (y :: r)) 0) with (last (runs f (c + f x) (y :: r)) 0). rewrite IH by discriminate. change (removelast (x :: y :: r)) with (x :: removelast (y :: r)). rewrite total_cons. lra.
Qed.
Definition timely (ts : list traj) : Prop := Forall (fun tr => 0 <= duration tr) ts.
Lemma timely_total ts : timely ts -> 0 <= total duration ts.
Proof. induction 1; [unfold total; cbn; lra|]. rewrite total_cons. lra. Qed.
Lemma timely_firstn k ts : timely ts -> timely (firstn k ts).
Proof. intros H. apply Forall_forall. intros x Hx. assert (In x ts) by (rewrite <- (firstn_skipn k ts); apply in_or_app; auto). unfold timely in H. rewrite Forall_forall in H. auto. Qed.
Lemma runs_low c ts v : timely ts -> v <= c -> searchsorted (runs duration c ts) v = 0%nat.
Proof. intros _ H. destruct ts; cbn; auto. destruct (Rlt_dec c v); [lra|auto]. Qed.
Lemma runs_search c ts k v : timely ts -> (k < List.length ts)%nat -> piece_start c ts k < v -> (S k = List.length ts \/ v <= piece_start c ts (S k)) -> searchsorted (runs duration c ts) v = S k.
Proof.
  revert c k; induction ts as [|x r IH]; intros c k Ht Hk H1 H2; cbn in Hk; [lia|]. inversion Ht as [|? ? Hx Hr]; subst. cbn [runs searchsorted]. unfold piece_start in *.
  pose proof (timely_total _ (timely_firstn k (x :: r) Ht)). destruct (Rlt_dec c v); [|lra]. f_equal. destruct k as [|k].
  - destruct r as [|y r]; [reflexivity|]. apply runs_low; auto. destruct H2 as [H2|H2]; [cbn in H2; lia|]. cbn [firstn] in H2. rewrite total_cons in H2. unfold total in H2. cbn in H2. lra.
  - apply IH; auto; [lia| |]. { change (firstn (S k) (x :: r)) with (x :: firstn k r) in H1. rewrite total_cons in H1. lra. }
    destruct H2 as [H2|H2]; [left; cbn in H2; lia|right]. change (firstn (S (S k)) (x :: r)) with (x :: firstn (S k) r) in H2. rewrite total_cons in H2. lra.
Qed.
Lemma removelast_len {A} (l : list A) : removelast l = firstn (List.length l - 1) l.
Proof. rewrite removelast_firstn_len. f_equal. lia. Qed.
Lemma runs_mono c ts j k : timely ts -> (j <= k)%nat -> piece_start c ts j <= piece_start c ts k.
Proof.
  intros Ht Hjk. unfold piece_start. assert (E : firstn j ts = firstn j (firstn k ts)) by (rewrite firstn_firstn; f_equal; lia). rewrite E.
  pose proof (firstn_skipn j (firstn k ts)) as F. rewrite <- F at 2. rewrite total_app. assert (timely (skipn j (firstn k ts))).
  { apply Forall_forall. intros x Hx. pose proof (timely_firstn k ts Ht) as G. unfold timely in G. rewrite Forall_forall in G. apply G. rewrite <- F. apply in_or_app; auto. }
  pose proof (timely_total _ H). lra.
Qed.
Lemma index_during c ts k t : timely ts -> (k < List.length ts)%nat -> during c ts k t -> index (runs duration c ts) t = k.
Proof.
  intros Ht Hk [H1 H2]. unfold index. assert (Hne : ts <> []) by (intros ->; cbn in Hk; lia). assert (Hh : hd 0 (runs duration c ts) = c) by (destruct ts; [congruence|reflexivity]). rewrite Hh, runs_last, runs_len by auto.
  assert (E0 : piece_start c ts 0 = c) by (unfold piece_start, total; cbn; lra). assert (EL : c + total duration (removelast ts) = piece_start c ts (List.length ts - 1)) by (unfold piece_start; rewrite removelast_len; reflexivity). rewrite EL.
  destruct (Rle_dec t c) as [A|A].
  - destruct H1 as [H1|H1]; auto. pose proof (runs_mono c ts 0 k Ht ltac:(lia)). lra.
  - destruct (Rle_dec (piece_start c ts (List.length ts - 1)) t) as [B|B].
    + destruct H2 as [H2|H2]; [lia|]. destruct (Nat.eq_dec (S k) (List.length ts)); [lia|]. pose proof (runs_mono c ts (S k) (List.length ts - 1) Ht ltac:(lia)). lra.
    + assert (P : piece_start c ts k < t) by (destruct H1 as [->|]; lra). erewrite runs_search; eauto; [lia|]. destruct H2; [auto|right; lra].
Qed.

(** a piece with another start time *)
Lemma circle_shift t0 u m t : circle_length u m t = circle_length t0 m (t - u + t0).
Proof.
  unfold circle_length. cbn zeta. destruct (Rlt_dec t u), (Rlt_dec (t - u + t0) t0); try lra; [f_equal; lra|]. destruct (Rlt_dec (u + mv_t m) t), (Rlt_dec (t0 + mv_t m) (t - u + t0)); try lra; f_equal; lra.
Qed.
Lemma shift tr a u t : simple tr -> at_t a tr (Some u) t = at_t a tr None (t - u + start tr).
Proof.
  destruct tr as [t0 d x y an|t0 pts an cum m|t0 radius xc yc angle0 angle1 len orient m|ts t0 d t0s cums]; cbn [simple start]; intros H; [reflexivity| | |contradiction].
  - cbn [at_t dflt]. unfold indexes. replace (t - u + t0 - t0) with (t - u) by ring. reflexivity.
  - cbn [at_t dflt]. rewrite (circle_shift t0 u). reflexivity.
Qed.
Lemma shift_length tr u t : simple tr -> length_at tr (Some u) (Some t) = length_at tr None (Some (t - u + start tr)).
Proof.
  destruct tr as [t0 d x y an|t0 pts an cum m|t0 radius xc yc angle0 angle1 len orient m|ts t0 d t0s cums]; cbn [simple start]; intros H; [reflexivity| | |contradiction].
  - cbn [length_at dflt]. unfold indexes. replace (t - u + t0 - t0) with (t - u) by ring. reflexivity.
  - cbn [length_at dflt]. rewrite (circle_shift t0 u). reflexivity.
Qed.
Lemma merged_at ts s d t0s cums u a t : at_t a (Merged ts s d t0s cums) u t = match nth_error ts (index t0s t) with Some tr => at_t a tr (Some (nthR (index t0s t) t0s)) t | None => 0 end.
Proof. cbn [at_t]. set (i := index t0s t). set (v := nthR i t0s). clearbody i v. revert i; induction ts as [|x r IH]; intros [|i]; cbn; auto. Qed.
Lemma merged_length_at ts s d t0s cums u t : length_at (Merged ts s d t0s cums) u (Some t) =
  match nth_error ts (index t0s t) with Some tr => match length_at tr (Some (nthR (index t0s t) t0s)) (Some t) with TEr e => TEr e | TOk l => TOk (l + nthR (index t0s t) cums) end | None => TEr TIndex end.
Proof.
  cbn [length_at]. set (i := index t0s t). set (v := nthR i t0s). set (c := nthR i cums). clearbody i v c.
  assert (E : (fix go (ts : list traj) (k : nat) : tres R := match ts with [] => TEr TIndex | tr :: r => match k with O => length_at tr (Some v) (Some t) | S k => go r k end end) ts i = match nth_error ts i with Some tr => length_at tr (Some v) (Some t) | None => TEr TIndex end).
  { revert i; induction ts as [|x r IH]; intros [|i]; cbn; auto. }
  rewrite E. destruct (nth_error ts i); reflexivity.
Qed.

Lemma merged_made ts tr : new_merged ts = TOk tr -> exists x r, ts = x :: r /\ tr = Merged ts (start x) (sum_of duration ts) (runs duration (start x) ts) (runs length_ 0 ts ++ [sum_of length_ ts]).
Proof. unfold new_merged. destruct ts as [|x r]; [discriminate|]. intros H. exists x, r. split; [reflexivity|]. apply (f_equal (fun r => match r with TOk x => x | TEr _ => tr end)) in H. symmetry. exact H. Qed.

(** ** C66 *)
(** durations and lengths add up *)
Theorem C66_totals : forall ts tr, new_merged ts = TOk tr ->
  (exists first, hd_error ts = Some first /\ start tr = start first) /\ duration tr = total duration ts /\ length_ tr = total length_ ts /\ stop tr = start tr + total duration ts.
Proof.
  intros ts tr Hn. destruct (merged_made _ _ Hn) as (x & r & E & ->). repeat split.
  - exists x. rewrite E. split; reflexivity.
  - cbn [duration]. apply total_sum.
  - cbn [length_]. unfold lastR. rewrite last_last. apply total_sum.
  - unfold stop. cbn [start duration]. rewrite total_sum. reflexivity.
Qed.
(** during a piece, the position and the angle are those of that piece, started when the previous ones are over *)
Theorem C66_piece : forall ts tr k piece t a, new_merged ts = TOk tr -> Forall (fun x => 0 <= duration x) ts -> nth_error ts k = Some piece -> simple piece -> during (start tr) ts k t ->
  at_t a tr None t = at_t a piece None (t - piece_start (start tr) ts k + start piece).
Proof.
  intros ts tr k piece t a Hn Ht Hk Hs Hd. assert (Hl : (k < List.length ts)%nat) by (apply nth_error_Some; congruence).
  destruct (merged_made _ _ Hn) as (x & r & E & ->). cbn [start] in Hd |- *. rewrite merged_at. rewrite (index_during _ _ _ _ Ht Hl Hd), Hk. rewrite shift by auto. rewrite runs_nth by auto. reflexivity.
Qed.
(** the length covered: that of the previous pieces and of this one so far *)
Theorem C66_length : forall ts tr k piece t, new_merged ts = TOk tr -> Forall (fun x => 0 <= duration x) ts -> nth_error ts k = Some piece -> simple piece -> during (start tr) ts k t ->
  length_at tr None (Some t) = match length_at piece None (Some (t - piece_start (start tr) ts k + start piece)) with TOk l => TOk (total length_ (firstn k ts) + l) | TEr e => TEr e end.
Proof.
  intros ts tr k piece t Hn Ht Hk Hs Hd. assert (Hl : (k < List.length ts)%nat) by (apply nth_error_Some; congruence).
  destruct (merged_made _ _ Hn) as (x & r & E & ->). cbn [start] in Hd |- *. rewrite merged_length_at. rewrite (index_during _ _ _ _ Ht Hl Hd), Hk. rewrite shift_length by auto. rewrite runs_nth by auto.
  unfold piece_start. destruct (length_at _ _ _); [|reflexivity]. f_equal. unfold nthR. rewrite app_nth1 by (rewrite runs_len; auto). pose proof (runs_nth length_ 0 ts k Hl) as G. unfold nthR in G. rewrite G. lra.
Qed.
(** each moment belongs to a piece, except the moments at which one piece follows another *)
Theorem C66_some_piece : forall s ts t, ts <> [] -> Forall (fun x => 0 <= duration x) ts -> (forall k, (0 < k < List.length ts)%nat -> t <> piece_start s ts k) -> exists k, (k < List.length ts)%nat /\ during s ts k t.
Proof.
  intros s ts t Hne Ht Hb. destruct ts as [|x r]; [congruence|].
  assert (G : forall n, (n < List.length (x :: r))%nat -> (exists k, (k < n)%nat /\ during s (x :: r) k t) \/ n = 0%nat \/ piece_start s (x :: r) n < t).
  { induction n as [|n IH]; intros Hn; [auto|]. pose proof (Hb (S n) ltac:(lia)) as B. destruct (Rlt_dec (piece_start s (x :: r) (S n)) t); [auto|]. left. destruct (IH ltac:(lia)) as [(k & K1 & K2)|H].
    - exists k. split; [lia|auto].
    - exists n. split; [lia|]. split; [auto|]. right. lra. }
  destruct (G (List.length r)) as [(k & K1 & K2)|H]; [cbn; lia| |].
  - exists k. split; [cbn; lia|auto].
  - exists (List.length r). split; [cbn; lia|]. split; [auto|]. left. reflexivity.
Qed.
(** a + b + c + ... *)
Definition plus (first : traj) (rest : list traj) : tres traj := fold_left (fun acc tr => match acc with TOk x => add x tr | TEr e => TEr e end) rest (TOk first).
Lemma plus_app first rest c : plus first (rest ++ [c]) = match plus first rest with TOk x => add x c | TEr e => TEr e end.
Proof. unfold plus. rewrite fold_left_app. reflexivity. Qed.
Lemma plus_all first rest : Forall simple (first :: rest) -> timely (first :: rest) -> exists tr, plus first rest = TOk tr /\ start tr = start first /\ duration tr = total duration (first :: rest) /\ length_ tr = total length_ (first :: rest) /\
  forall a t k piece, nth_error (first :: rest) k = Some piece -> during (start first) (first :: rest) k t ->
    at_t a tr None t = at_t a piece None (t - piece_start (start first) (first :: rest) k + start piece) /\
    at_t a tr (Some (start first)) t = at_t a piece None (t - piece_start (start first) (first :: rest) k + start piece).
Proof.
  induction rest as [|c rest IH] using rev_ind; intros Hs Ht.
  - exists first. split; [reflexivity|]. split; [reflexivity|]. split; [rewrite total_cons; unfold total; cbn; lra|]. split; [rewrite total_cons; unfold total; cbn; lra|]. intros a t k piece Hk _. destruct k as [|[|k]]; [|discriminate|discriminate]. injection Hk as <-.
    unfold piece_start, total. cbn [firstn fold_left]. inversion Hs; subst. replace (t - (start first + 0) + start first) with t by ring. split; [reflexivity|]. rewrite shift by auto. f_equal. ring.
  - change (first :: rest ++ [c]) with ((first :: rest) ++ [c]) in *. apply Forall_app in Hs. destruct Hs as [Hs Hc]. unfold timely in Ht. apply Forall_app in Ht. destruct Ht as [Ht Htc]. destruct (IH Hs Ht) as (tr & P & S1 & D1 & L1 & A). inversion Hc as [|? ? Hc' _]; subst. inversion Htc as [|? ? Htc' _]; subst.
    rewrite plus_app, P. set (ts := first :: rest) in *. unfold add, new_merged. eexists. split; [reflexivity|]. split; [exact S1|]. split; [cbn [duration]; rewrite total_sum, total_app, !total_cons, D1; unfold total; cbn; lra|].
    split; [cbn [length_]; unfold lastR; rewrite last_last, total_sum, total_app, !total_cons, L1; unfold total; cbn; lra|].
    intros a t k piece Hk Hd. rewrite !merged_at. rewrite S1 in *.
    assert (T2 : timely [tr; c]). { constructor; [rewrite D1; apply timely_total; exact Ht|constructor; [exact Htc'|constructor]]. }
    destruct (Nat.lt_ge_cases k (List.length ts)) as [Hl|Hl].
    + rewrite nth_error_app1 in Hk by auto. assert (He : t < start first + total duration ts).
      { destruct Hd as [_ [Hd|Hd]]; [rewrite app_length in Hd; cbn [List.length] in Hd; lia|]. pose proof (runs_mono (start first) (ts ++ [c]) (S k) (List.length ts)) as M. assert (timely (ts ++ [c])) by (apply Forall_app; auto). specialize (M H ltac:(lia)).
        unfold piece_start in M at 2. rewrite firstn_app, firstn_all, Nat.sub_diag in M. rewrite firstn_O, app_nil_r in M. lra. }
      assert (D' : during (start first) ts k t).
      { destruct Hd as [H1 H2]. unfold during, piece_start in *. rewrite !firstn_app in *. replace (k - List.length ts)%nat with 0%nat in * by lia. replace (S k - List.length ts)%nat with 0%nat in * by lia. rewrite !firstn_O, !app_nil_r in *. split; [auto|]. destruct H2; [rewrite app_length in H; cbn [List.length] in H; lia|auto]. }
      assert (I : index (runs duration (start first) [tr; c]) t = 0%nat). { apply index_during; [exact T2|cbn; lia|]. split; [auto|]. right. unfold piece_start. cbn [firstn]. rewrite total_cons, D1. unfold total at 2. cbn [fold_left]. lra. }
      rewrite I. cbn [nth_error]. change (nthR 0 (runs duration (start first) [tr; c])) with (start first).
      destruct (A a t k piece Hk D') as [_ A2]. rewrite A2. unfold piece_start. rewrite firstn_app. replace (k - List.length ts)%nat with 0%nat by lia. rewrite firstn_O, app_nil_r. auto.
    + assert (k = List.length ts). { assert (k < List.length (ts ++ [c]))%nat by (apply nth_error_Some; congruence). rewrite app_length in H. change (List.length [c]) with 1%nat in H. lia. } subst k.
      rewrite nth_error_app2 in Hk by lia. rewrite Nat.sub_diag in Hk. injection Hk as <-.
      assert (PS : piece_start (start first) (ts ++ [c]) (List.length ts) = start first + total duration ts). { unfold piece_start. rewrite firstn_app, firstn_all, Nat.sub_diag. cbn [firstn]. rewrite app_nil_r. reflexivity. }
      assert (I : index (runs duration (start first) [tr; c]) t = 1%nat). { apply index_during; [exact T2|cbn; lia|]. split; [right|left; reflexivity]. unfold piece_start. cbn [firstn]. rewrite total_cons, D1. unfold total at 2. cbn [fold_left]. destruct Hd as [[Hd|Hd] _]; [discriminate|]. rewrite PS in Hd. lra. }
      rewrite I. cbn [nth_error]. rewrite shift by auto. rewrite PS. unfold nthR. cbn [runs nth]. rewrite D1. auto.
Qed.
(** adding up trajectories with + gives the same as merging them all *)
Theorem C66_plus : forall first rest, Forall simple (first :: rest) -> Forall (fun x => 0 <= duration x) (first :: rest) -> exists tr, plus first rest = TOk tr /\
  start tr = start first /\ duration tr = total duration (first :: rest) /\ length_ tr = total length_ (first :: rest) /\
  forall a t k piece, nth_error (first :: rest) k = Some piece -> during (start first) (first :: rest) k t -> at_t a tr None t = at_t a piece None (t - piece_start (start first) (first :: rest) k + start piece).
Proof. intros first rest Hs Ht. destruct (plus_all first rest Hs Ht) as (tr & A & B & C & D & E). exists tr. repeat split; auto. intros a t k piece Hk Hd. apply (E a t k piece Hk Hd). Qed.
(** refuted: with brackets, a + (b + c) is not the same: at time 1.5, during b, it is where c is *)
Theorem C66_nested_refuted : ~ (forall ts tr k piece t a, new_merged ts = TOk tr -> Forall (fun x => 0 <= duration x) ts -> nth_error ts k = Some piece -> during (start tr) ts k t ->
  at_t a tr None t = at_t a piece None (t - piece_start (start tr) ts k + start piece)).
Proof.
  intros H. set (A := new_standstill 0 1 0 0 0). set (B := new_standstill 0 1 1 0 0). set (C := new_standstill 0 1 2 0 0).
  set (bc := Merged [B; C] (start B) (sum_of duration [B; C]) (runs duration (start B) [B; C]) (runs length_ 0 [B; C] ++ [sum_of length_ [B; C]])). set (tr := Merged [A; bc] (start A) (sum_of duration [A; bc]) (runs duration (start A) [A; bc]) (runs length_ 0 [A; bc] ++ [sum_of length_ [A; bc]])). assert (E2 : new_merged [A; bc] = TOk tr) by reflexivity. assert (S0 : start tr = 0) by reflexivity.
  assert (D : duration bc = 2) by (cbn; lra). pose proof (H _ tr 1%nat bc 1.5 AxX E2) as K. rewrite S0 in K.
  assert (I1 : index [0; 0 + 1] 1.5 = 1%nat) by (unfold index; cbn; destruct (Rle_dec 1.5 0); [lra|]; unfold lastR; cbn; destruct (Rle_dec (0 + 1) 1.5); [reflexivity|lra]).
  assert (I2 : index [0; 0 + 1] 0.5 = 0%nat) by (unfold index; cbn; destruct (Rle_dec 0.5 0); [lra|]; unfold lastR; cbn; destruct (Rle_dec (0 + 1) 0.5); [lra|]; destruct (Rlt_dec 0 0.5); [|lra]; destruct (Rlt_dec (0 + 1) 0.5); [lra|reflexivity]).
  assert (L : at_t AxX tr None 1.5 = 2). { unfold tr. rewrite merged_at. cbn [runs duration A new_standstill start]. rewrite I1. cbn [nth_error]. unfold bc. rewrite merged_at. cbn [runs duration B C new_standstill start]. rewrite I1. reflexivity. }
  assert (PS : piece_start 0 [A; bc] 1 = 1) by (unfold piece_start, total; cbn; lra).
  assert (R1 : at_t AxX bc None (1.5 - piece_start 0 [A; bc] 1 + start bc) = 1). { rewrite PS. replace (1.5 - 1 + start bc) with 0.5 by (cbn; lra). unfold bc. rewrite merged_at. cbn [runs duration B C new_standstill start]. rewrite I2. reflexivity. }
  rewrite L, R1 in K. assert (2 = 1); [|lra]. apply K; [constructor; [cbn; lra|constructor; [rewrite D; lra|constructor]]|reflexivity|]. split; [right; rewrite PS; lra|left; reflexivity].
Qed.

Example C66_case : exists tr, new_merged [new_standstill 3 1 0 0 0; new_standstill 0 1 1 0 0; new_standstill 0 2 2 0 0] = TOk tr /\ start tr = 3 /\ duration tr = 4 /\
  during 3 [new_standstill 3 1 0 0 0; new_standstill 0 1 1 0 0; new_standstill 0 2 2 0 0] 1 4.5 /\ position tr 4.5 = (1, 0).
Proof.
  eexists. split; [reflexivity|]. split; [reflexivity|]. split; [cbn; lra|].
  assert (D : during 3 [new_standstill 3 1 0 0 0; new_standstill 0 1 1 0 0; new_standstill 0 2 2 0 0] 1 4.5) by (split; right; unfold piece_start, total; cbn; lra). split; [exact D|].
  match goal with |- position ?x _ = _ => set (tr := x) end. set (ts := [new_standstill 3 1 0 0 0; new_standstill 0 1 1 0 0; new_standstill 0 2 2 0 0]) in *.
  assert (F : Forall (fun x => 0 <= duration x) ts) by (constructor; [cbn; lra|constructor; [cbn; lra|constructor; [cbn; lra|constructor]]]).
  unfold position. rewrite (C66_piece ts tr 1 (new_standstill 0 1 1 0 0) 4.5 AxX eq_refl F eq_refl Logic.I D), (C66_piece ts tr 1 (new_standstill 0 1 1 0 0) 4.5 AxY eq_refl F eq_refl Logic.I D). reflexivity.
Qed.
Print Assumptions C66_totals.
Print Assumptions C66_piece.
Print Assumptions C66_length.
Print Assumptions C66_some_piece.
Print Assumptions C66_plus.
Print Assumptions C66_nested_refuted.
