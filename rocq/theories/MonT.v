(** Tables of what a monitor holds: xt, tx, as_resampled_dataframe, values, histogram_autoscale and the tables of print_histogram. Not modelled: the layout
    of the printed text, pandas (a data frame is a list of columns), use_datetime0, animation (env._t is env._now), infinite weights. *)
From Coq Require Import QArith Qround List Bool Arith ZArith.
From Verif Require Import Base Util Mon.
Import ListNotations.
Open Scope Q_scope.

(** xt 3004-3076, as pairs *)
Definition xt (ex0 exoff force add_now : bool) (v : menv) (m : mon) : mres (list (val * Q)) :=
  if m_stats m then Mer MNotImpl else
  let exoff := exoff && m_level m in
  let num := ty_any (m_type m) && force in
  let cv := fun x => if num then numeric x else x in
  let off := if num then NegInf else m_off m in
  let out := fun l => filter (fun p => (negb ex0 || negb (veqb (fst p) (Num 0))) && (negb exoff || negb (veqb (fst p) off))) (map (fun p => (cv (snd p), fst p)) (rev (m_e m)) ++ l) in
  if add_now && m_level m then match m_e m with [] => Mer MIndex | (_, x) :: _ => Mok (out [(cv x, v_now v)]) end else Mok (out []).
(** tx 3078-3116 *)
Definition tx (ex0 exoff force add_now : bool) (v : menv) (m : mon) : mres (list (Q * val)) :=
  match xt ex0 exoff force add_now v m with Mok l => Mok (map (fun p => (snd p, fst p)) l) | Mer e => Mer e end.

(** as_resampled_dataframe 3219-3329: the loop 3321-3326; the entries oldest first *)
Fixpoint advance (t : Q) (x : val) (l : list (Q * val)) : val * list (Q * val) :=
  match l with [] => (x, []) | (s, y) :: r => if Qle_bool s t then advance t y r else (x, l) end.
(** 3320-3327; None: pd.NA *)
Fixpoint column (off x : val) (l : list (Q * val)) (ts : list Q) : list (option val) :=
  match ts with [] => [] | t :: r => let '(y, k) := advance t x l in (if veqb y off then None else Some y) :: column off y k r end.
(** 3309-3328; stats_only monitors have no _t: an exception *)
Fixpoint columns (self : mon) (t0 : Q) (ts : list Q) (ms : list mon) : mres (list (list (option val))) :=
  match ms with
  | [] => Mok []
  | m :: r =>
      if negb (m_level m) then Mer MValue else if m_stats m then Mer MNotImpl else
      match rev (m_e m) with
      | [] => Mer MIndex
      | (s, _) :: _ => if negb (Qeq_bool s t0) then Mer MValue else match columns self t0 ts r with Mok k => Mok (column (m_off self) (m_off m) (rev (m_e m)) ts :: k) | e => e end
      end
  end.
(** the column t, and those of the monitors; fuel for arange *)
Definition resampled (fuel : nat) (extra : list mon) (delta : Q) (min_t max_t : option Q) (v : menv) (m : mon) : mres (list Q * list (list (option val))) :=
  if m_stats m then Mer MNotImpl else
  match rev (m_e m) with
  | [] => Mer MIndex
  | (t0, _) :: _ =>
      let a := match min_t with None => t0 | Some t => t + v_off v end in
      let b := match max_t with None => v_now v | Some t => t + v_off v end in
      match arange fuel a b delta with
      | UOk ts => match columns m t0 ts (m :: extra) with Mok c => Mok (ts, c) | Mer e => Mer e end
      | UEr _ => Mer MFuel
      end
  end.

(** values 2674-2734 *)
(** 2729-2732 *)
Fixpoint uniq (seen l : list val) : list val := match l with [] => seen | x :: r => if existsb (veqb x) seen then uniq seen r else uniq (seen ++ [x]) r end.
(** 2716-2727: the key of a value; [low] gives the place of str(x).lower() among the strings *)
Inductive number_key := KNeg | KNum (q : Q) | KInf (s : nat).
Definition num_key (low : nat -> nat) (x : val) : number_key := match x with Num q => KNum q | NegInf => KNeg | Oth _ (Some q) => KNum q | Oth i None => KInf (low i) end.
Definition nk_ltb (a b : number_key) : bool :=
  match a, b with
  | KNeg, KNeg => false | KNeg, _ => true | KNum _, KNeg => false | KNum p, KNum q => Qltb p q | KNum _, KInf _ => true | KInf i, KInf j => Nat.ltb i j | KInf _, _ => false
  end.
Definition nk_eqb (a b : number_key) : bool := match a, b with KNeg, KNeg => true | KNum p, KNum q => Qeq_bool p q | KInf i, KInf j => Nat.eqb i j | _, _ => false end.
Definition key_ltb (a b : Q * number_key) : bool := Qltb (fst a) (fst b) || (Qeq_bool (fst a) (fst b) && nk_ltb (snd a) (snd b)).
(** sorted(): stable *)
Fixpoint kins {A} (key : A -> Q * number_key) (x : A) (l : list A) : list A := match l with [] => [x] | y :: r => if key_ltb (key x) (key y) then x :: l else y :: kins key x r end.
Definition ksort {A} (key : A -> Q * number_key) (l : list A) : list A := fold_left (fun acc x => kins key x acc) l [].
(** the weight or duration of one value; the cache that _xweight leaves does not change the result of a next call at the same time *)
Definition weight_of_value (v : menv) (m : mon) (x : val) : Q := match snd (if m_level m then value_duration [x] v m else value_weight [x] v m) with Mok w => w | Mer _ => 0 end.
Definition values (low : nat -> nat) (ex0 force sort_on_weight sort_on_duration : bool) (v : menv) (m : mon) : mres (list val) :=
  if m_stats m then Mer MNotImpl else
  let x := fst (snd (xweight ex0 force v m)) in
  if (if m_level m then sort_on_weight else sort_on_duration) then Mer MValue else
  Mok (ksort (fun y => (if sort_on_weight || sort_on_duration then - weight_of_value v m y else 1, num_key low y)) (uniq [] x)).

(** histogram_autoscale 2330-2364: the widths of the bins that are tried in turn *)
Definition widths : list Q := flat_map (fun i => let e := inject_Z (10 ^ Z.of_nat i) in [e; e * 2; e * 5]) (seq 0 10).
(** 2357-2358 *)
Definition auto_low (xmin w : Q) : Q := inject_Z (Qfloor (xmin / w)) * w.
Definition auto_number (xmin xmax w : Q) : Z := Qceiling ((xmax - auto_low xmin w) / w).
(** 2353-2363: the first that needs at most 30 bins, or else the last *)
Fixpoint try_widths (xmin xmax : Q) (last : Q) (l : list Q) : Q :=
  match l with [] => last | w :: r => if (auto_number xmin xmax w <=? 30)%Z then w else try_widths xmin xmax w r end.
Definition histogram_autoscale (ex0 : bool) (v : menv) (m : mon) : mres (Q * Q * Z) :=
  if m_stats m then Mer MNotImpl else
  if Qeq_bool (snd (sys_weight ex0 v m)) 0 then Mok (1, 0, 0%Z) else
  match snd (maximum ex0 v m), snd (minimum ex0 v m) with
  | Some xmax, Some xmin => let w := try_widths xmin xmax 1 widths in Mok (w, auto_low xmin w, auto_number xmin xmax w)
  | _, _ => Mer MZero
  end.

(** print_histogram 2434-2672 *)
Record row := mkRow { w_ub : bound; w_count : Q; w_perc : Q; w_cum : Q }.
(** 2655-2658; sys_bin_weight 2042-2044 *)
Definition bin_of (lo hi : bound) (v : menv) (m : mon) : mres Q :=
  if weighted m then Mok (bin_weight_of lo hi (snd (xweight false true v m)))
  else match snd (bin_number_of_entries lo hi false v m) with Mok n => Mok (inject_Z (Z.of_nat n)) | Mer e => Mer e end.
(** 2645-2670: from bin i on, [k] bins *)
Fixpoint bin_rows (lowerbound width : Q) (n : Z) (total cum : Q) (k : nat) (i : Z) (v : menv) (m : mon) : mres (list row) :=
  match k with
  | O => Mok []
  | S k =>
      let lb := if (i =? -1)%Z then BNegInf else BFin (lowerbound + inject_Z i * width) in
      let ub := if (i =? n)%Z then BInf else BFin (lowerbound + inject_Z (i + 1) * width) in
      match bin_of lb ub v m with
      | Mer e => Mer e
      | Mok c => let p := c / (if Qeq_bool total 0 then 1 else total) in match bin_rows lowerbound width n total (cum + p) k (i + 1) v m with Mok l => Mok (mkRow ub c p (cum + p) :: l) | Mer e => Mer e end
      end
  end.
(** without values: 2538-2542, 2620-2670 *)
Definition histogram (nbins : option Z) (lowerbound width : option Q) (ex0 : bool) (v : menv) (m : mon) : mres (list row) :=
  if m_stats m then Mok [] else
  let total := sumQ (snd (snd (xweight ex0 true v m))) in
  let or := fun {A} (o : option A) d => match o with Some x => x | None => d end in
  match (match nbins, lowerbound, width with None, None, None => histogram_autoscale false v m | _, _, _ => Mok (or width 1, or lowerbound 0, or nbins 30%Z) end) with
  | Mer e => Mer e
  | Mok (w, lb, n) => if (n <? 0)%Z then Mok [] else bin_rows lb w n total 0 (Z.to_nat (n + 2)) (-1) v m
  end.
(** with values: 2551-2619. A row for each of the values, and one for the rest *)
Inductive label := LVal (x : val) | LRest.
Record vrow := mkVrow { y_label : label; y_count : Q; y_perc : Q }.
Definition value_of_rows (vs : list val) (v : menv) (m : mon) : mres Q :=
  if m_level m then snd (value_duration vs v m) else if weighted m then snd (value_weight vs v m)
  else match snd (value_number_of_entries vs v m) with Mok n => Mok (inject_Z (Z.of_nat n)) | Mer e => Mer e end.
Fixpoint remove1 (x : val) (l : list val) : list val := match l with [] => [] | y :: r => if veqb x y then r else y :: remove1 x r end.
Fixpoint dup (l : list val) : bool := match l with [] => false | x :: r => existsb (veqb x) r || dup r end.
Fixpoint value_rows (total : Q) (l : list (label * list val)) (v : menv) (m : mon) : mres (list vrow) :=
  match l with
  | [] => Mok []
  | (lb, vs) :: r => match value_of_rows vs v m with Mer e => Mer e | Mok c => match value_rows total r v m with Mok k => Mok (mkVrow lb c (c / (if Qeq_bool total 0 then 1 else total)) :: k) | e => e end end
  end.
(** [given]: the values, or None for all (values=True); without sorting *)
Definition histogram_values (low : nat -> nat) (given : option (list val)) (ex0 : bool) (v : menv) (m : mon) : mres (list vrow) :=
  if m_stats m then Mer MNotImpl else
  let total := sumQ (snd (snd (xweight ex0 (match given with Some [] => true | _ => false end) v m))) in
  match values low ex0 false false false v m with
  | Mer e => Mer e
  | Mok all =>
      if match given with Some l => dup l | None => false end then Mer MValue else
      let labels := match given with Some l => l | None => all end in
      let rest := fold_left (fun acc x => if existsb (veqb x) acc then remove1 x acc else acc) labels all in
      value_rows total (map (fun x => (LVal x, [x])) labels ++ match rest with [] => [] | _ => [(LRest, rest)] end) v m
  end.
