(** Property C57: ItemFile reads back what was written. *)
From Coq Require Import List Bool Ascii String Arith Lia.
From Verif Require Import Item.
Import ListNotations.

(** ** Specification: how items are written *)
Inductive item := Bare (w : list ascii) | Quoted (q : ascii) (w : list ascii).
Definition value (i : item) : list ascii := match i with Bare w => w | Quoted _ w => w end.
(** what may stand between items: a blank, a tab, a newline, {comment}, # comment up to the end of the line *)
Inductive gap := Blank | Tab | Newline | Brace (w : list ascii) | Hash (w : list ascii).
Definition no_end (w : list ascii) : Prop := ~ In nl w.
Definition ok_item (i : item) : Prop :=
  match i with
  | Bare w => w <> [] /\ forall c, In c w -> c <> nl /\ c <> cr /\ c <> blank /\ c <> tab /\ c <> hash /\ c <> lbrace /\ c <> quote1 /\ c <> quote2
  | Quoted q w => (q = quote1 \/ q = quote2) /\ ~ In q w /\ ~ In nl w /\ ~ In cr w
  end.
Definition ok_gap (g : gap) : Prop := match g with Brace w => no_end w /\ ~ In rbrace w | Hash w => no_end w | _ => True end.
Definition text_item (i : item) : list ascii := match i with Bare w => w | Quoted q w => q :: w ++ [q] end.
Definition text_gap (g : gap) : list ascii := match g with Blank => [blank] | Tab => [tab] | Newline => [nl] | Brace w => lbrace :: w ++ [rbrace] | Hash w => hash :: w ++ [nl] end.
Definition text_gaps (l : list gap) : list ascii := flat_map text_gap l.
Definition text (l : list (list gap * item)) (trailer : list gap) : list ascii := flat_map (fun gi => text_gaps (fst gi) ++ text_item (snd gi)) l ++ text_gaps trailer.
Definition is_bare (i : item) : bool := match i with Bare _ => true | Quoted _ _ => false end.
(** something between two bare items; [b]: the item before is bare *)
Fixpoint separated (b : bool) (l : list (list gap * item)) : Prop :=
  match l with [] => True | (g, i) :: l => (b = true -> is_bare i = true -> g <> []) /\ separated (is_bare i) l end.

(** ** Proofs *)
Definition from (m : mode) (r t : list ascii) : list (list ascii) := match lines t with [] => [] | l :: ls => scan m r l ++ flat_map (scan MDot []) ls end.
Lemma isc_refl : forall c, isc c c = true. Proof. intro c. unfold isc. destruct (ascii_dec c c); congruence. Qed.
Lemma isc_neq : forall a b, a <> b -> isc a b = false. Proof. intros a b H. unfold isc. destruct (ascii_dec a b); congruence. Qed.
Lemma lines_cons : forall t, exists l ls, lines t = l :: ls.
Proof. induction t as [|c t (l & ls & E)]; cbn; eauto. destruct (isc c nl); eauto. rewrite E. eauto. Qed.
Lemma items_from : forall t, items t = from MDot [] t. Proof. intro t. unfold items, from. destruct (lines_cons t) as (l & ls & ->). reflexivity. Qed.
Lemma from_nil : forall m r, from m r [] = flush r. Proof. intros. unfold from. cbn. apply app_nil_r. Qed.
Lemma from_nl : forall m r t, from m r (nl :: t) = flush r ++ from MDot [] t.
Proof. intros. unfold from. cbn [lines]. rewrite isc_refl. cbn [scan]. f_equal. destruct (lines_cons t) as (l & ls & ->). reflexivity. Qed.
Definition step (m : mode) (r : list ascii) (c : ascii) (t : list ascii) : list (list ascii) :=
  match m with
  | MQuote q => if isc c q then r :: from MDot [] t else from m (r ++ [c]) t
  | MBrace => if isc c rbrace then from MDot r t else from m r t
  | MDot => if is_quote c then flush r ++ from (MQuote c) [] t else if isc c lbrace then flush r ++ from MBrace [] t else if isc c blank || isc c tab then flush r ++ from MDot [] t else from MDot (r ++ [c]) t
  end.
Lemma from_step : forall m r c t, c <> nl -> c <> cr -> (m = MDot -> c <> hash) -> from m r (c :: t) = step m r c t.
Proof.
  intros m r c t N R H. unfold from, step. cbn [lines]. rewrite (isc_neq _ _ N). unfold from. destruct (lines_cons t) as (l & ls & ->). cbn [scan]. rewrite (isc_neq _ _ N), (isc_neq _ _ R). cbn [orb].
  destruct m; [rewrite (isc_neq c hash) by auto| |].
  - destruct (is_quote c); [rewrite <- app_assoc; reflexivity|]. destruct (isc c lbrace); [rewrite <- app_assoc; reflexivity|]. destruct (isc c blank || isc c tab); [rewrite <- app_assoc; reflexivity|]. reflexivity.
  - destruct (isc c q); reflexivity.
  - destruct (isc c rbrace); reflexivity.
Qed.
(** carriage returns are dropped, except after # *)
Lemma from_cr : forall m r t, from m r (cr :: t) = from m r t.
Proof. intros. unfold from. cbn [lines]. rewrite (isc_neq cr nl) by discriminate. destruct (lines_cons t) as (l & ls & ->). reflexivity. Qed.
Lemma lines_skip : forall w t, no_end w -> exists l, lines (w ++ nl :: t) = l :: lines t /\ l = w.
Proof. induction w as [|c w IH]; intros t N; cbn [app lines]; [rewrite isc_refl; eauto|]. rewrite (isc_neq c nl) by (intro; subst; apply N; left; auto). destruct (IH t) as (l & -> & ->); [intro; apply N; right; auto|]. eauto. Qed.
Lemma from_hash : forall r w t, no_end w -> from MDot r (hash :: w ++ nl :: t) = flush r ++ from MDot [] t.
Proof.
  intros r w t N. unfold from at 1. cbn [lines]. rewrite (isc_neq hash nl) by discriminate. destruct (lines_skip w t N) as (l & -> & ->). cbn [scan]. rewrite (isc_neq hash cr), (isc_neq hash nl) by discriminate. cbn [orb]. rewrite isc_refl. f_equal. unfold from. destruct (lines_cons t) as (l & ls & ->). reflexivity.
Qed.
Lemma from_brace : forall w r t, no_end w -> ~ In rbrace w -> from MBrace r (w ++ rbrace :: t) = from MDot r t.
Proof.
  induction w as [|c w IH]; intros r t N B; cbn [app].
  - rewrite from_step by discriminate. cbn. reflexivity.
  - destruct (ascii_dec c cr) as [->|R]; [rewrite from_cr; apply IH; [intro; apply N; right; auto|intro; apply B; right; auto]|].
    rewrite from_step; [|intro; subst; apply N; left; auto|auto|discriminate]. cbn [step]. rewrite (isc_neq c rbrace) by (intro; subst; apply B; left; auto). apply IH; [intro; apply N; right; auto|intro; apply B; right; auto].
Qed.
Lemma from_quote : forall w r q t, (q = quote1 \/ q = quote2) -> ~ In q w -> ~ In nl w -> ~ In cr w -> from (MQuote q) r (w ++ q :: t) = (r ++ w) :: from MDot [] t.
Proof.
  induction w as [|c w IH]; intros r q t Q B N R; cbn [app].
  - rewrite from_step; [|destruct Q as [->| ->]; discriminate..]. cbn [step]. rewrite isc_refl, app_nil_r. reflexivity.
  - rewrite from_step; [|intro; subst; apply N; left; auto|intro; subst; apply R; left; auto|discriminate]. cbn [step]. rewrite (isc_neq c q) by (intro; subst; apply B; left; auto). cbn in B, N, R. rewrite IH by tauto. rewrite <- app_assoc. reflexivity.
Qed.
Lemma from_bare : forall w r t, (forall c, In c w -> c <> nl /\ c <> cr /\ c <> blank /\ c <> tab /\ c <> hash /\ c <> lbrace /\ c <> quote1 /\ c <> quote2) -> from MDot r (w ++ t) = from MDot (r ++ w) t.
Proof.
  induction w as [|c w IH]; intros r t H; cbn [app]; [rewrite app_nil_r; reflexivity|]. destruct (H c (or_introl eq_refl)) as (A & B & C & D & E & F & G & I). rewrite from_step by auto. cbn [step]. unfold is_quote. rewrite !isc_neq by auto. cbn [orb].
  rewrite IH by (intros; apply H; right; auto). rewrite <- app_assoc. reflexivity.
Qed.
Lemma from_gap : forall g r t, ok_gap g -> from MDot r (text_gap g ++ t) = flush r ++ from MDot [] t.
Proof.
  intros g r t O. destruct g; cbn [text_gap app] in *.
  - rewrite from_step by discriminate. reflexivity.
  - rewrite from_step by discriminate. reflexivity.
  - apply from_nl.
  - rewrite from_step by discriminate. cbn [step]. unfold is_quote. rewrite !isc_neq by discriminate. cbn [orb]. rewrite isc_refl, <- app_assoc. cbn [app]. destruct O. rewrite from_brace by auto. reflexivity.
  - rewrite <- app_assoc. cbn [app]. apply from_hash. auto.
Qed.
Lemma from_gaps : forall l r t, Forall ok_gap l -> l <> [] -> from MDot r (text_gaps l ++ t) = flush r ++ from MDot [] t.
Proof.
  induction l as [|g l IH]; intros r t O N; [congruence|]. inversion O; subst. unfold text_gaps. cbn [flat_map]. rewrite <- app_assoc, from_gap by auto. destruct l as [|g' l]; [reflexivity|]. fold (text_gaps (g' :: l)). rewrite IH by (auto; discriminate). reflexivity.
Qed.
Lemma from_gaps0 : forall l t, Forall ok_gap l -> from MDot [] (text_gaps l ++ t) = from MDot [] t.
Proof. intros [|g l] t O; [reflexivity|]. rewrite from_gaps by (auto; discriminate). reflexivity. Qed.
Lemma from_text : forall l r tr, Forall (fun gi => Forall ok_gap (fst gi) /\ ok_item (snd gi)) l -> Forall ok_gap tr -> separated (match r with [] => false | _ => true end) l -> from MDot r (text l tr) = flush r ++ map (fun gi => value (snd gi)) l.
Proof.
  induction l as [|[g i] l IH]; intros r tr O T S; unfold text.
  - cbn [flat_map map]. rewrite app_nil_l, app_nil_r. rewrite <- (app_nil_r (text_gaps tr)). destruct tr as [|g tr]; [apply (from_nil MDot)|]. rewrite from_gaps by (auto; discriminate). rewrite from_nil. apply app_nil_r.
  - inversion O as [|? ? (OG & OI) O']; subst. cbn [flat_map fst snd]. rewrite <- !app_assoc. fold (text l tr). cbn [separated] in S. destruct S as [S1 S2]. cbn [fst snd] in OG, OI.
    assert (REST : forall r0, (r0 = [] \/ is_bare i = false) -> from MDot r0 (text_item i ++ text l tr) = flush r0 ++ value i :: map (fun gi => value (snd gi)) l).
    { intros r0 R0. destruct i as [w|q w]; cbn [text_item value].
      - destruct R0 as [->|]; [|discriminate]. destruct OI as [NE OI]. rewrite from_bare by auto. cbn [app flush]. rewrite IH; auto; [destruct w; [congruence|reflexivity]|]. destruct w; [congruence|exact S2].
      - destruct OI as (Q & A & B & C). cbn [app]. rewrite from_step; [|destruct Q as [->| ->]; discriminate..]. cbn [step]. assert (IQ : is_quote q = true) by (unfold is_quote; destruct Q as [->| ->]; reflexivity). rewrite IQ, <- app_assoc. cbn [app]. rewrite from_quote by auto. cbn [app]. rewrite IH; auto. }
    cbn [map]. destruct g as [|g0 g].
    + cbn [text_gaps flat_map app]. apply REST. destruct r as [|c r]; auto. right. destruct (is_bare i) eqn:B; auto. exfalso. apply S1; auto.
    + rewrite from_gaps by (auto; discriminate). rewrite REST by auto. reflexivity.
Qed.
(** ** Properties *)
Theorem C57_read_back : forall l trailer, Forall (fun gi => Forall ok_gap (fst gi) /\ ok_item (snd gi)) l -> Forall ok_gap trailer -> separated false l -> items (text l trailer) = map (fun gi => value (snd gi)) l.
Proof. intros l tr O T S. rewrite items_from. apply (from_text l [] tr); auto. Qed.
(** read_item gives them one by one, then raises EOFError *)
Theorem C57_read_item : forall l trailer n, Forall (fun gi => Forall ok_gap (fst gi) /\ ok_item (snd gi)) l -> Forall ok_gap trailer -> separated false l ->
  nth_error (read_items (S n) (items (text l trailer))) n = Some (option_map (fun gi => value (snd gi)) (nth_error l n)).
Proof.
  intros l tr n O T S. rewrite C57_read_back by auto. clear. revert n. induction l as [|x l IH]; intro n.
  - assert (X : forall k, nth_error (read_items (S k) []) k = Some None) by (induction k; [reflexivity|]; cbn in *; exact IHk). cbn [map]. rewrite X. destruct n; reflexivity.
  - destruct n as [|n]; [reflexivity|]. cbn [map read_items read_item nth_error]. apply IH.
Qed.
(** for any text: only quotes give an empty item *)
Theorem C57_no_empty : forall t, ~ In quote1 t -> ~ In quote2 t -> ~ In [] (items t).
Proof.
  intros t Q1 Q2 H. unfold items in H. apply in_flat_map in H. destruct H as (line & IL & IN).
  assert (LC : forall t line, In line (lines t) -> forall c, In c line -> In c t).
  { clear. induction t as [|c t IH]; intros line IL x IX; cbn in IL; [destruct IL as [<-|[]]; auto|]. destruct (isc c nl); [destruct IL as [<-|IL]; [destruct IX|right; eapply IH; eauto]|]. destruct (lines t) as [|l ls] eqn:E; [destruct IL as [<-|[]]; destruct IX as [<-|[]]; left; auto|].
    destruct IL as [<-|IL]; [destruct IX as [<-|IX]; [left; auto|right; apply (IH l); [left; auto|auto]]|right; apply (IH line); [right; auto|auto]]. }
  assert (NQ : forall c, In c line -> is_quote c = false). { intros c IC. apply (LC t line IL) in IC. unfold is_quote. rewrite !isc_neq; auto; intro; subst; auto. }
  assert (FL : forall r, ~ In [] (flush r)) by (intros [|c r]; cbn; [auto|intros [X|[]]; discriminate]).
  assert (X : forall line m r, (m = MDot \/ m = MBrace) -> (forall c, In c line -> is_quote c = false) -> ~ In [] (scan m r line)).
  { clear - FL. induction line as [|c line IH]; intros m r M NQ; cbn [scan]; [apply FL|]. assert (NQ' : forall c, In c line -> is_quote c = false) by (intros; apply NQ; right; auto). destruct (isc c cr || isc c nl); [apply IH; auto|]. destruct M as [->| ->].
    - destruct (isc c hash); [apply FL|]. rewrite (NQ c) by (left; auto). destruct (isc c lbrace); [intro H; apply in_app_or in H; destruct H as [H|H]; [revert H; apply FL|revert H; apply IH; auto]|]. destruct (isc c blank || isc c tab); [intro H; apply in_app_or in H; destruct H as [H|H]; [revert H; apply FL|revert H; apply IH; auto]|]. apply IH; auto.
    - destruct (isc c rbrace); apply IH; auto. }
  revert IN. apply X; auto.
Qed.
(** The first item with a newline in it is not read back: an item between quotes ends at the end of the line. *)
Theorem C57_newline_refuted : exists q w, (q = quote1 \/ q = quote2) /\ ~ In q w /\ items (q :: w ++ [q]) <> [w].
Proof. exists quote1, (list_ascii_of_string "a" ++ [nl] ++ list_ascii_of_string "b"). split; auto. split; [cbn; intuition discriminate|]. vm_compute. discriminate. Qed.
(** read_item_bool: "false" in any case, a zero and the empty text give False, any other text gives True *)
Theorem C57_bool : forall strip_lower zero x, let r := strip_lower x in
  (r = list_ascii_of_string "false" \/ zero r = true \/ r = [] -> as_bool strip_lower zero x = false) /\ (r <> list_ascii_of_string "false" -> zero r = false -> r <> [] -> as_bool strip_lower zero x = true).
Proof.
  intros sl zero x r. unfold as_bool. fold r. destruct (list_eq_dec ascii_dec r (list_ascii_of_string "false")) as [E|E]; [split; auto; intro NE; elim NE; auto|].
  destruct (zero r); [split; auto; discriminate|]. split; [intros [H|[H|H]]; [tauto|discriminate|rewrite H; auto]|]. intros _ _ N. destruct r; auto.
Qed.
(** ** Cases *)
Definition a_ (s : string) := list_ascii_of_string s.
Definition case_items : list (list gap * item) :=
  [([Hash (a_ " 'a' file"); Newline; Blank], Bare (a_ "Item1")); ([], Quoted quote2 (a_ "Item 2")); ([Brace (a_ "x # ")], Bare (a_ "3")); ([Tab; Blank], Quoted quote1 []); ([], Bare (a_ "}z"))].
Example C57_case : Forall (fun gi => Forall ok_gap (fst gi) /\ ok_item (snd gi)) case_items /\ separated false case_items /\ items (text case_items [Newline]) = [a_ "Item1"; a_ "Item 2"; a_ "3"; []; a_ "}z"].
Proof.
  split; [|split; [cbn; repeat split; try discriminate; auto|vm_compute; reflexivity]].
  unfold case_items. repeat (constructor; [split; cbn [fst snd]; [repeat constructor; cbn; intro H; repeat (destruct H as [H|H]; [discriminate|]); destruct H|cbn [ok_item]]|]); [..|constructor].
  - split; [discriminate|]. intros c H. cbn in H. repeat (destruct H as [<-|H]; [repeat split; discriminate|]). destruct H.
  - split; [auto|]. cbn. repeat split; intro H; repeat (destruct H as [H|H]; [discriminate|]); destruct H.
  - split; [discriminate|]. intros c H. cbn in H. repeat (destruct H as [<-|H]; [repeat split; discriminate|]). destruct H.
  - split; [auto|]. cbn. auto.
  - split; [discriminate|]. intros c H. cbn in H. repeat (destruct H as [<-|H]; [repeat split; discriminate|]). destruct H.
Qed.
Print Assumptions C57_read_back.
Print Assumptions C57_read_item.
Print Assumptions C57_no_empty.
Print Assumptions C57_newline_refuted.
Print Assumptions C57_bool.
