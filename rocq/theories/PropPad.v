(** C93: pictures in a video of another size. *)
From Coq Require Import ZArith Bool Lia Znumtheory.
From Verif Require Import Pad.
Open Scope Z_scope.

(** ** The picture is shown at ox, oy with size rw, rh: each of its pixels there, and the background elsewhere *)
Definition shows (p : picture) (ox oy rw rh : Z) : Prop :=
  (forall a b, 0 <= a < rw -> 0 <= b < rh -> at_ p (ox + a) (oy + b) = Scaled a b) /\
  (forall x y, ~ (ox <= x < ox + rw /\ oy <= y < oy + rh) -> at_ p x y = Black).

(** ** Proofs *)
Lemma round_near : forall n d, 0 < d -> 2 * n - d <= 2 * (d * round_div n d) <= 2 * n + d.
Proof.
  intros n d D. unfold round_div; cbv zeta. pose proof (Z.div_mod n d ltac:(lia)) as E. pose proof (Z.mod_pos_bound n d D) as B.
  destruct (2 * (n mod d) <? d) eqn:A; [apply Z.ltb_lt in A; nia|apply Z.ltb_ge in A]. destruct (d <? 2 * (n mod d)) eqn:F; [apply Z.ltb_lt in F; nia|apply Z.ltb_ge in F]. destruct (Z.even (n / d)); nia.
Qed.
Lemma round_le : forall n d m, 0 < d -> n <= m * d -> round_div n d <= m.
Proof.
  intros n d m D L. unfold round_div; cbv zeta. pose proof (Z.div_mod n d ltac:(lia)) as E. pose proof (Z.mod_pos_bound n d D) as B.
  assert (Q : n / d <= m) by (apply Z.div_le_upper_bound; nia).
  assert (Q1 : 0 < n mod d -> n / d + 1 <= m) by (intros; nia).
  destruct (2 * (n mod d) <? d) eqn:A; [exact Q|apply Z.ltb_ge in A]. destruct (d <? 2 * (n mod d)) eqn:F; [apply Q1; lia|]. destruct (Z.even (n / d)); [exact Q|apply Q1; lia].
Qed.
Lemma round_ge : forall n d m, 0 < d -> m * d <= n -> m <= round_div n d.
Proof.
  intros n d m D L. assert (m <= n / d) by (apply Z.div_le_lower_bound; lia). unfold round_div; cbv zeta. destruct (2 * (n mod d) <? d); [lia|]. destruct (d <? 2 * (n mod d)); [lia|]. destruct (Z.even (n / d)); lia.
Qed.
Lemma half : forall n, 0 <= n -> 0 <= round_div n 2 /\ round_div n 2 <= n /\ Z.abs (n - 2 * round_div n 2) <= 1.
Proof. intros n N. pose proof (round_near n 2 ltac:(lia)). pose proof (round_ge n 2 0 ltac:(lia) ltac:(lia)). split; [lia|]. split; [apply round_le; lia|lia]. Qed.
Lemma size_ok : forall iw ih tw th, 0 < iw -> 0 < ih -> 0 < tw -> 0 < th -> let (rw, rh) := scaled_size iw ih tw th in
  0 <= rw <= tw /\ 0 <= rh <= th /\ (rw = tw /\ 2 * Z.abs (rh * iw - tw * ih) <= iw \/ rh = th /\ 2 * Z.abs (rw * ih - th * iw) <= ih).
Proof.
  intros iw ih tw th A B C D. unfold scaled_size. destruct (ih * tw <? th * iw) eqn:E; [apply Z.ltb_lt in E|apply Z.ltb_ge in E].
  - pose proof (round_near (tw * ih) iw A). split; [lia|]. split; [split; [apply round_ge; nia|apply round_le; nia]|]. left. split; [reflexivity|lia].
  - pose proof (round_near (th * iw) ih B). split; [split; [apply round_ge; nia|apply round_le; nia]|]. split; [lia|]. right. split; [reflexivity|lia].
Qed.

(** ** Theorems *)
(** a picture of the size of the video is left as it is *)
Theorem C93_same : forall w h, resize_with_pad w h w h = Some (mkPicture w h Orig).
Proof. intros w h. unfold resize_with_pad. rewrite !Z.eqb_refl. reflexivity. Qed.
(** another one is shown completely, in a picture of the size of the video: as large as possible, in its own proportions up to half a pixel, and in the middle up to half a pixel, with a black border *)
Theorem C93_fits : forall iw ih tw th p, 0 < iw -> 0 < ih -> 0 < tw -> 0 < th -> ~ (iw = tw /\ ih = th) -> resize_with_pad iw ih tw th = Some p ->
  pw p = tw /\ ph p = th /\ exists ox oy rw rh, shows p ox oy rw rh /\ 0 < rw /\ 0 < rh /\ 0 <= ox /\ ox + rw <= tw /\ 0 <= oy /\ oy + rh <= th /\
  (rw = tw /\ 2 * Z.abs (rh * iw - tw * ih) <= iw \/ rh = th /\ 2 * Z.abs (rw * ih - th * iw) <= ih) /\
  Z.abs ((tw - (ox + rw)) - ox) <= 1 /\ Z.abs ((th - (oy + rh)) - oy) <= 1.
Proof.
  intros iw ih tw th p A B C D N. unfold resize_with_pad. destruct ((ih =? th) && (iw =? tw)) eqn:E; [apply andb_prop in E; destruct E as [E1 E2]; apply Z.eqb_eq in E1; apply Z.eqb_eq in E2; intuition|].
  pose proof (size_ok iw ih tw th A B C D) as S. unfold offset. destruct (scaled_size iw ih tw th) as [rw rh]. destruct S as (S1 & S2 & S3).
  destruct ((rw <=? 0) || (rh <=? 0)) eqn:Z0; [discriminate|]. apply orb_false_elim in Z0. destruct Z0 as [Z1 Z2]. apply Z.leb_gt in Z1. apply Z.leb_gt in Z2. intros R. inversion R; subst; clear R. cbn [pw ph].
  split; [reflexivity|]. split; [reflexivity|]. destruct (half (tw - rw) ltac:(lia)) as (H1 & H2 & H3). destruct (half (th - rh) ltac:(lia)) as (K1 & K2 & K3).
  exists (round_div (tw - rw) 2), (round_div (th - rh) 2), rw, rh. set (ox := round_div (tw - rw) 2) in *. set (oy := round_div (th - rh) 2) in *.
  split; [|repeat split; first [assumption|lia]]. split; cbn [at_].
  - intros a b HA HB. replace (ox <=? ox + a) with true by (symmetry; apply Z.leb_le; lia). replace (ox + a <? ox + rw) with true by (symmetry; apply Z.ltb_lt; lia). replace (oy <=? oy + b) with true by (symmetry; apply Z.leb_le; lia). replace (oy + b <? oy + rh) with true by (symmetry; apply Z.ltb_lt; lia). cbn [andb]. f_equal; lia.
  - intros x y H. destruct ((ox <=? x) && (x <? ox + rw) && (oy <=? y) && (y <? oy + rh)) eqn:F; [|reflexivity]. exfalso. apply H. rewrite !andb_true_iff, !Z.leb_le, !Z.ltb_lt in F. lia.
Qed.
(** given the side that fills the video, no other length k of the other side is closer to the proportions of the picture *)
Theorem C93_best : forall iw ih tw th k, 0 < iw -> 0 < ih -> 0 < tw -> 0 < th -> let (rw, rh) := scaled_size iw ih tw th in
  (rw = tw -> ih * tw < th * iw -> Z.abs (rh * iw - tw * ih) <= Z.abs (k * iw - tw * ih)) /\ (rh = th -> th * iw <= ih * tw -> Z.abs (rw * ih - th * iw) <= Z.abs (k * ih - th * iw)).
Proof.
  intros iw ih tw th k A B C D. unfold scaled_size. destruct (ih * tw <? th * iw) eqn:E; [apply Z.ltb_lt in E|apply Z.ltb_ge in E]; split; intros _ L; try lia.
  - pose proof (round_near (tw * ih) iw A) as R. set (r := round_div (tw * ih) iw) in *. destruct (Z.lt_trichotomy k r) as [K|[K|K]]; [|subst k; lia|]; nia.
  - pose proof (round_near (th * iw) ih B) as R. set (r := round_div (th * iw) ih) in *. destruct (Z.lt_trichotomy k r) as [K|[K|K]]; [|subst k; lia|]; nia.
Qed.
(** exactly the pictures that, scaled to the video, are at most half a pixel wide or high have no result *)
Theorem C93_none : forall iw ih tw th, 0 < iw -> 0 < ih -> 0 < tw -> 0 < th ->
  (resize_with_pad iw ih tw th = None <-> ~ (iw = tw /\ ih = th) /\ (2 * (tw * ih) <= iw \/ 2 * (th * iw) <= ih)).
Proof.
  intros iw ih tw th A B C D. assert (RZ : forall n d, 0 < n -> 0 < d -> (round_div n d <= 0 <-> 2 * n <= d)).
  { intros n d N0 D0. split.
    - intros H. pose proof (round_near n d D0). nia.
    - intros H. unfold round_div; cbv zeta. rewrite Z.div_small, Z.mod_small by lia. destruct (2 * n <? d) eqn:E; [lia|]. replace (d <? 2 * n) with false by (symmetry; apply Z.ltb_ge; lia). cbn. lia. }
  unfold resize_with_pad. destruct ((ih =? th) && (iw =? tw)) eqn:E.
  - apply andb_prop in E; destruct E as [E1 E2]; apply Z.eqb_eq in E1; apply Z.eqb_eq in E2. split; [discriminate|intros [H _]; exfalso; apply H; split; assumption].
  - assert (N : ~ (iw = tw /\ ih = th)) by (intros [-> ->]; rewrite !Z.eqb_refl in E; discriminate). unfold offset, scaled_size. destruct (ih * tw <? th * iw) eqn:F; [apply Z.ltb_lt in F|apply Z.ltb_ge in F].
    + replace (tw <=? 0) with false by (symmetry; apply Z.leb_gt; lia). cbn [orb]. pose proof (RZ (tw * ih) iw ltac:(nia) A) as K. destruct (round_div (tw * ih) iw <=? 0) eqn:G; [apply Z.leb_le in G|apply Z.leb_gt in G].
      * split; [intros _; split; [exact N|left; apply K; exact G]|reflexivity].
      * split; [discriminate|]. intros [_ [H|H]]; [apply K in H; lia|nia].
    + replace (th <=? 0) with false by (symmetry; apply Z.leb_gt; lia). rewrite orb_false_r. pose proof (RZ (th * iw) ih ltac:(nia) B) as K. destruct (round_div (th * iw) ih <=? 0) eqn:G; [apply Z.leb_le in G|apply Z.leb_gt in G].
      * split; [intros _; split; [exact N|right; apply K; exact G]|reflexivity].
      * split; [discriminate|]. intros [_ [H|H]]; [nia|apply K in H; lia].
Qed.
(** partial: there is a result if, scaled to the video, the picture is more than half a pixel wide and high *)
Theorem C93_total_partial : forall iw ih tw th, 0 < iw -> 0 < ih -> 0 < tw -> 0 < th -> iw < 2 * (tw * ih) -> ih < 2 * (th * iw) -> exists p, resize_with_pad iw ih tw th = Some p.
Proof.
  intros iw ih tw th A B C D P Q. unfold resize_with_pad. destruct ((ih =? th) && (iw =? tw)); [eexists; reflexivity|]. unfold offset, scaled_size.
  destruct (ih * tw <? th * iw).
  - pose proof (round_near (tw * ih) iw A) as R. replace (tw <=? 0) with false by (symmetry; apply Z.leb_gt; lia). replace (round_div (tw * ih) iw <=? 0) with false by (symmetry; apply Z.leb_gt; nia). eexists; reflexivity.
  - pose proof (round_near (th * iw) ih B) as R. replace (th <=? 0) with false by (symmetry; apply Z.leb_gt; lia). replace (round_div (th * iw) ih <=? 0) with false by (symmetry; apply Z.leb_gt; nia). eexists; reflexivity.
Qed.
(** a very wide or very high picture has no result: im.resize raises ValueError *)
Theorem C93_total_refuted : exists iw ih tw th, 0 < iw /\ 0 < ih /\ 0 < tw /\ 0 < th /\ resize_with_pad iw ih tw th = None.
Proof. exists 1000, 1, 100, 100. repeat split. Qed.

(** ** Cases *)
Example C93_case_wide : exists p, resize_with_pad 1024 768 800 500 = Some p /\ scaled_size 1024 768 800 500 = (667, 500) /\ offset 1024 768 800 500 = (66, 0) /\ at_ p 66 0 = Scaled 0 0 /\ at_ p 65 0 = Black /\ at_ p 732 499 = Scaled 666 499 /\ at_ p 733 499 = Black.
Proof. eexists. repeat split. Qed.
Example C93_case_high : scaled_size 800 300 400 400 = (400, 150) /\ offset 800 300 400 400 = (0, 125) /\ 300 * 400 < 400 * 800. Proof. repeat split. Qed.
Example C93_case_total : 1024 < 2 * (800 * 768) /\ 768 < 2 * (500 * 1024). Proof. split; reflexivity. Qed.

Print Assumptions C93_same. Print Assumptions C93_fits. Print Assumptions C93_best. Print Assumptions C93_total_partial. Print Assumptions C93_total_refuted. Print Assumptions C93_none.
