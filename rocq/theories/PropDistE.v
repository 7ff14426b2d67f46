(** Properties C45, C48 and C49, continued: distributions as values of a Pdf, and the parameters accepted. *)
From Coq Require Import QArith Qabs Qround Qminmax List Bool ZArith Lia Lqa.
From Verif Require Import Base Util Dist PropUtil PropDist PropDistB PropDistC PropDistD.
Import ListNotations.
Open Scope Q_scope.

(** ** Which parameters are accepted *)
Definition whole (q : Q) : Prop := exists z, q == inject_Z z.
Lemma is_int_whole : forall q, is_int q = true <-> whole q.
Proof.
  intro q. split; intro H; [exists (Qfloor q); apply is_int_floor; auto|]. destruct H as [z H]. unfold is_int. apply Qeq_bool_iff. rewrite H at 1. assert (E : Qfloor q = z) by (rewrite H; apply Qfloor_Z). rewrite E. reflexivity.
Qed.
Lemma pos_iff : forall q, Qle_bool q 0 = false <-> 0 < q.
Proof. intro q. split; intro H; [apply qle_false; auto|]. destruct (Qle_bool q 0) eqn:E; auto. apply Qle_bool_iff in E. lra. Qed.
Definition accepted {A} (r : dres A) : Prop := exists d, r = DOk d.
(** each distribution is made for exactly the parameters that are meaningful, and refused for all others *)
Theorem C49_parameters : forall f,
  (forall m, accepted (new_expo (Some m) None f) <-> 0 < m) /\ (forall r, accepted (new_expo None (Some r) f) <-> 0 < r) /\
  (forall m sd g, accepted (new_normal m (Some sd) None g f) <-> 0 <= sd) /\
  (forall lo hi, accepted (new_int lo (Some hi) f) <-> lo <= hi /\ whole lo /\ whole hi) /\
  (forall lo hi, accepted (new_uni lo (Some hi) f) <-> lo <= hi) /\
  (forall low high mode, accepted (new_tri low (Some high) (Some mode) f) <-> low <= mode <= high) /\
  (forall scale shape gm, accepted (new_weib scale shape gm f) <-> 0 < shape) /\
  (forall shape scale, accepted (new_gamma shape (Some scale) None f) <-> 0 < shape /\ 0 < scale) /\ (forall shape rate, accepted (new_gamma shape None (Some rate) f) <-> 0 < shape /\ 0 < rate) /\
  (forall alpha beta, accepted (new_beta alpha beta) <-> 0 < alpha /\ 0 < beta) /\
  (forall shape scale, accepted (new_erlang shape None (Some scale) f) <-> whole shape /\ 0 < shape /\ 0 < scale) /\ (forall shape rate, accepted (new_erlang shape (Some rate) None f) <-> whole shape /\ 0 < shape /\ 0 < rate) /\
  (forall d lo hi fail retries inclo inchi, accepted (new_bounded d (Some lo) (Some hi) fail retries inclo inchi f) <-> lo * f <= hi * f).
Proof.
  assert (LE0 : forall q, Qle_bool q 0 = true -> ~ 0 < q) by (intros q H C; apply Qle_bool_iff in H; lra).
  assert (LT : forall a b, Qltb a b = true -> ~ b <= a) by (intros a b H C; apply Qltb_iff in H; lra).
  assert (GE : forall a b, Qltb a b = false -> b <= a) by (intros a b H; apply Qltb_false_iff; auto).
  assert (IW : forall q, is_int q = true -> whole q) by (intro q; apply is_int_whole). assert (INW : forall q, is_int q = false -> ~ whole q) by (intros q H C; apply is_int_whole in C; congruence).
  pose proof qle_false as LP.
  intro f. repeat split; intros.
  all: unfold new_expo, new_normal, new_int, new_uni, new_tri, new_weib, new_gamma, new_beta, new_erlang, new_bounded in *; cbn [dbind option_map] in *.
  all: repeat match goal with
       | H : accepted (if negb ?c then _ else _) |- _ => let E := fresh "E" in destruct c eqn:E; cbn [negb] in H; [|destruct H; discriminate]
       | H : accepted (if ?c then _ else _) |- _ => let E := fresh "E" in destruct c eqn:E; [destruct H; discriminate|]
       | H : _ /\ _ |- _ => destruct H
       | |- accepted (if negb ?c then _ else _) => let E := fresh "E" in destruct c eqn:E; cbn [negb]; [|exfalso; eapply INW; eauto; fail]
       | |- accepted (if ?c then _ else _) => let E := fresh "E" in destruct c eqn:E; [exfalso; first [eapply LE0; eauto; fail | eapply LT; eauto; fail | eapply LT; [eassumption|lra]]|]
       | |- accepted (DOk _) => eexists; reflexivity
       end; auto.
Qed.
Print Assumptions C49_parameters.

(** ** Distributions as values of a Pdf *)
(** distributions in the default unit of time, and with a mean of their own *)
Definition default_unit (d : dist) : Prop :=
  match d with
  | DExpo _ f | DNormal _ _ _ f | DInt _ _ f | DUni _ _ f | DTri _ _ _ f | DConst _ f | DWeib _ _ _ f | DGamma _ _ f | DErlang _ _ f => f == 1
  | DBeta _ _ | DCdf _ _ | DPdf _ _ _ | DCum _ _ => True
  | DExpr _ _ _ | DMap _ _ | DBounded _ _ _ _ _ _ _ => False
  end.
(** m is the mean of the value x: that of a number is the number *)
Definition has_mean (x : pval) (m : Q) : Prop := match x with PNum q => m == q | POth _ => False | PDist d => default_unit d /\ exists q, mean d = DOk (Some q) /\ m == q end.
Lemma has_mean_of : forall x m, has_mean x m -> exists q, mean_of_x x = DOk (Some q) /\ q == m.
Proof.
  intros [q| |d] m H; cbn [has_mean mean_of_x] in *; [exists q; split; auto; lra|tauto|]. destruct H as (U & q & M & E).
  assert (X : forall a f, f == 1 -> a * f == a) by (intros a f F; rewrite F; ring). assert (Y : forall a f, f == 1 -> a / f == a) by (intros a f F; rewrite F; field).
  destruct d; simpl in M, U |- *; try tauto; injection M as M; try subst q; try (eexists; split; [reflexivity|]; rewrite E; try rewrite X by auto; try rewrite Y by auto; try reflexivity; lra).
  - eexists; split; [reflexivity|]. rewrite E, (X (value * f) f) by auto. reflexivity.
  - eexists; split; [reflexivity|]. rewrite E, (X (shape * scale) f) by auto. reflexivity.
  - eexists; split; [reflexivity|]. rewrite E, (Y (shape / rate) f) by auto. reflexivity.
  - rewrite M. eexists; split; [reflexivity|lra].
  - rewrite M. eexists; split; [reflexivity|lra].
Qed.
Lemma pdf_loop_nested : forall l ms, Forall2 (fun xp m => has_mean (fst xp) m) l ms -> forall s sx r t sx', pdf_loop None s (Some sx) l = DOk (r, t, sx') ->
  t == s + sumQ (map snd l) /\ exists w, sx' = Some w /\ w == sx + sumQ (map (fun '(m, p) => m * p) (combine ms (map snd l))).
Proof.
  intros l ms F. induction F as [|[x p] m l ms H F IH]; intros s sx r t sx' E; cbn [pdf_loop in_unit dbind] in E.
  - injection E as <- <- <-. cbn. split; [lra|]. exists sx. split; auto. lra.
  - cbn [fst] in H. destruct (has_mean_of x m H) as (q & Q1 & Q2). rewrite Q1 in E. cbn [dbind oadd] in E. destruct (pdf_loop None (s + p) (Some (sx + q * p)) l) as [[[r' t'] w']|] eqn:L; [|discriminate]. cbn [dbind] in E. injection E as <- <- <-.
    destruct (IH _ _ _ _ _ L) as (A & w & B & C). cbn [map snd combine sumQ fold_right]. unfold sumQ in *. split; [cbn; lra|]. exists w. split; auto. cbn [fold_right]. rewrite C, Q2. lra.
Qed.
(** the mean of a Pdf of numbers and distributions (in the default unit) is the average of their means, weighted with the probabilities *)
Theorem C48_nested : forall l ms d m, Forall2 (fun xp mx => has_mean (fst xp) mx) l ms -> new_pdf l None = DOk d -> mean d = DOk (Some m) ->
  ~ sumQ (map snd l) == 0 /\ m == sumQ (map (fun '(mx, p) => mx * p) (combine ms (map snd l))) / sumQ (map snd l).
Proof.
  intros l ms d m F N M. destruct (new_pdf_ok l None d N) as (rr & t & sx & L & TZ & -> & _). destruct (pdf_loop_nested l ms F _ _ _ _ _ L) as (T & w & -> & W). cbn [mean scale_mean] in M. injection M as <-.
  assert (TE : t == sumQ (map snd l)) by lra. split; [rewrite <- TE; auto|]. rewrite TE, W. field. rewrite <- TE. auto.
Qed.
(** it has no mean (nan) as soon as one of the values is neither a number nor a distribution *)
Theorem C48_no_mean : forall l u d i p, new_pdf l u = DOk d -> In (POth i, p) l -> mean d = DOk None.
Proof.
  assert (NONE : forall u l s r t w, pdf_loop u s None l = DOk (r, t, w) -> w = None).
  { induction l as [|[x p] l IH]; intros s r t w E; cbn [pdf_loop] in E; [injection E; auto|]. destruct (in_unit u x) as [y|]; [|discriminate]. cbn [dbind] in E. destruct (mean_of_x y) as [mx|]; [|discriminate]. cbn [dbind oadd] in E.
    destruct (pdf_loop u (s + p) None l) as [[[r' t'] w']|] eqn:L; [|discriminate]. cbn [dbind] in E. injection E as <- <- <-. eauto. }
  assert (X : forall u l i p, In (POth i, p) l -> forall s sx r t w, pdf_loop u s sx l = DOk (r, t, w) -> w = None).
  { induction l as [|[x p'] l IH]; intros i p I s sx r t w E; [destruct I|]. cbn [pdf_loop] in E. destruct (in_unit u x) as [y|] eqn:U; [|discriminate]. cbn [dbind] in E. destruct (mean_of_x y) as [mx|] eqn:MX; [|discriminate]. cbn [dbind] in E.
    destruct (pdf_loop u (s + p') (oadd sx mx p') l) as [[[r' t'] w']|] eqn:L; [|discriminate]. cbn [dbind] in E. injection E as <- <- <-. destruct I as [I|I]; [|eapply IH; eauto].
    injection I as -> ->. destruct u as [f|]; cbn in U; [discriminate|]. injection U as <-. cbn in MX. injection MX as <-. assert (O : oadd sx None p = None) by (destruct sx; reflexivity). rewrite O in L. eapply NONE; eauto. }
  intros l u d i p N I. destruct (new_pdf_ok l u d N) as (rr & t & sx & L & TZ & -> & _). cbn [mean]. rewrite (X u l i p I _ _ _ _ _ L). auto.
Qed.
(** ** Sampling several values *)
(** v is drawn from x, which brings the random stream from s to s1; a number or another object takes nothing from the stream *)
Definition drawn {St} (G : rng St) (x : pval) (s : St) (v : val) (s1 : St) : Prop := match x with PNum q => v = VNum q /\ s1 = s | POth i => v = VOth i /\ s1 = s | PDist d => sample G d s = (DOk v, s1) end.
(** the values are drawn from xs one after the other, each from the stream as the previous one left it *)
Inductive in_turn {St} (G : rng St) : list pval -> St -> list val -> St -> Prop :=
| turn_nil : forall s, in_turn G [] s [] s
| turn_cons : forall x xs s v s1 vs s2, drawn G x s v s1 -> in_turn G xs s1 vs s2 -> in_turn G (x :: xs) s (v :: vs) s2.
Lemma sample_list_turn : forall St (G : rng St) l is s vs s2, sample_list G l is s = (DOk vs, s2) -> exists xs, Forall2 (fun i x => exists p, nth_error l i = Some (x, p)) is xs /\ in_turn G xs s vs s2.
Proof.
  intros St G l. induction is as [|i is IH]; intros s vs s2 E; cbn [sample_list] in E; [injection E as <- <-; exists []; split; constructor|].
  destruct (nth_error l i) as [[x p]|] eqn:N; [|discriminate]. destruct (sample_x G x s) as [[v|e] s1] eqn:D; [|discriminate]. destruct (sample_list G l is s1) as [[vs'|e] s3] eqn:R; [|discriminate]. injection E as <- <-.
  destruct (IH _ _ _ R) as (xs & F & T). exists (x :: xs). split; [constructor; eauto|]. eapply turn_cons; eauto. destruct x; cbn [sample_x drawn] in *; [injection D as <- <-; auto..|auto].
Qed.
(** Pdf.sample(n) also with distributions as values: the values chosen are sampled in turn, from one stream *)
Theorem C49_in_turn : forall St (G : rng St) l d n s vs s2, new_pdf l None = DOk d -> sample_n G d n s = (DOk vs, s2) -> exists is s1 xs,
  gr_pick G (length l) (Nat.min (Z.to_nat n) (length l)) s = (is, s1) /\ Forall2 (fun i x => exists p, nth_error l i = Some (x, p)) is xs /\ in_turn G xs s1 vs s2.
Proof.
  intros St G l d n s vs s2 N E. destruct (new_pdf_ok l None d N) as (rr & t & sx & L & TZ & -> & _). destruct (pdf_loop_ok _ _ _ _ _ _ _ L) as (_ & LEN & NTH). cbn [sample_n] in E. destruct (all_equal (map snd l)); [|discriminate]. destruct (n <? 0)%Z; [discriminate|].
  assert (LL : length (scale_cum rr t) = length l) by (unfold scale_cum; rewrite map_length; auto). rewrite LL in E. destruct (gr_pick G (length l) (Nat.min (Z.to_nat n) (length l)) s) as [is s1]. exists is, s1. apply sample_list_turn in E. destruct E as (xs & F & T). exists xs. split; auto. split; auto.
  clear - F NTH LEN. induction F as [|i x is xs [p H] F IH]; constructor; auto. unfold scale_cum in H. rewrite nth_error_map in H. destruct (nth_error rr i) as [[y c]|] eqn:R; [|discriminate]. cbn in H. injection H as <- <-.
  destruct (nth_error l i) as [[x0 p0]|] eqn:NI; [|exfalso; apply nth_error_None in NI; rewrite <- LEN in NI; apply nth_error_None in NI; congruence]. destruct (NTH i x0 p0 NI) as (y1 & c1 & A & B & _). rewrite A in R. injection R as <- <-. cbn in B. subst. eauto.
Qed.
Definition case_nested : list (pval * Q) := [(PDist (DUni 0 10 1), 1); (PNum 7, 2); (PDist (DGamma 3 2 1), 1)].
Example C48_nested_case : Forall2 (fun xp mx => has_mean (fst xp) mx) case_nested [5; 7; 6] /\ exists d m, new_pdf case_nested None = DOk d /\ mean d = DOk (Some m) /\ m == 25 # 4.
Proof.
  split; [repeat constructor; cbn; try reflexivity; eexists; split; reflexivity|]. eexists. eexists. split; [reflexivity|]. split; [vm_compute; reflexivity|]. reflexivity.
Qed.
Print Assumptions C48_nested.
Print Assumptions C48_no_mean.
Print Assumptions C49_in_turn.
