(** Monitors. Modelled (salabim.py): Monitor.__init__ 434-473, merge 527-638, t_multiply 640-662, x_map 664-742 (one monitor), slice 783-947,
    __call__ 1016-1030, reset 1138-1193, monitor 1195-1231, tally 1242-1322, _tally_add_now 1324-1328, _tally_off 1330-1338, multiply 1570-1607,
    mean … maximum 1675-1793, percentile 1844-1961, bin_* and value_* 1963-2138, number_of_entries … sys_weight_zero 2140-2265, xt 3042-3076,
    _xweight 3118-3171, do_force_numeric 25271-25285, type_to_typecode_off 25253-25268.
    Not modelled: names, animation (env._animate False), histograms, dataframes. Numbers are exact rationals; inf and nan are no values
    (apart from -inf as off value). The root in std is left out: std is modelled by its square. *)
From Coq Require Import QArith Qround Lqa List Bool Arith ZArith Lia.
From Verif Require Import Base Util.
Import ListNotations.
Open Scope Q_scope.

(** a value: a number, -inf, or something else (identified by [id]) that int() and float() turn into the number [num], or not *)
Inductive val := Num (q : Q) | NegInf | Oth (id : nat) (num : option Q).
Definition veqb (a b : val) : bool := match a, b with Num x, Num y => Qeq_bool x y | NegInf, NegInf => true | Oth i _, Oth j _ => Nat.eqb i j | _, _ => false end.
(** do_force_numeric 25271-25285, for one value; also 1273-1280 *)
Definition numeric (v : val) : val := match v with Oth _ (Some q) => Num q | Oth _ None => Num 0 | v => v end.
(** the number itself; values that are not numbers do not get here (they have been made numeric, or the array has a type code) *)
Definition numq (v : val) : Q := match v with Num q => q | _ => 0 end.

(** types 25253-25268: any: a list; float, double: array "d"; the others: arrays of integers lo..hi with an off value *)
Inductive mtype := TAny | TFloat | TInt (lo hi off : Z).
Definition ty_bool := TInt 0 255 255. Definition ty_int8 := TInt (-128) 127 (-128). Definition ty_uint8 := TInt 0 255 255.
Definition ty_int16 := TInt (-32768) 32767 (-32768). Definition ty_uint16 := TInt 0 65535 65535.
Definition ty_int32 := TInt (-2147483648) 2147483647 (-2147483648). Definition ty_uint32 := TInt 0 4294967295 4294967295.
Definition ty_int64 := TInt (-9223372036854775808) 9223372036854775807 (-9223372036854775808). Definition ty_uint64 := TInt 0 18446744073709551615 18446744073709551615.
Definition off_of (ty : mtype) : val := match ty with TInt _ _ o => Num (inject_Z o) | _ => NegInf end.
Definition ty_any (ty : mtype) : bool := match ty with TAny => true | _ => false end.
Definition ty_eqb (a b : mtype) : bool := match a, b with TAny, TAny => true | TFloat, TFloat => true | TInt l h o, TInt l' h' o' => (l =? l')%Z && (h =? h')%Z && (o =? o')%Z | _, _ => false end.
(** can the value be appended to the list or array? otherwise TypeError or OverflowError *)
Definition is_int (q : Q) : bool := Qeq_bool (inject_Z (Qfloor q)) q.
Definition fits (ty : mtype) (v : val) : bool :=
  match ty, v with TAny, _ => true | TFloat, Oth _ _ => false | TFloat, _ => true | TInt lo hi _, Num q => is_int q && Qle_bool (inject_Z lo) q && Qle_bool q (inject_Z hi) | TInt _ _ _, _ => false end.

Inductive mexn := MType | MValue | MNotImpl | MIndex | MZero | MFit | MFuel.
Inductive mres (A : Type) := Mok (a : A) | Mer (e : mexn).
Arguments Mok {A} a. Arguments Mer {A} e.

(** n, mun, sn, sumw, _minimum, _maximum of a stats_only monitor, for one value of ex0; None: inf resp. -inf *)
Record acc := mkAcc { a_n : nat; a_mu : Q; a_s : Q; a_w : Q; a_min : option Q; a_max : option Q }.
Definition acc0 := mkAcc 0 0 0 0 None None.
(** _weight: False, True (level monitors) or an array (last first) *)
Inductive wts := WNo | WLevel | WList (l : list Q).
(** the result of _xweight *)
Definition xw := (list val * list Q)%type.
(** a monitor: level, type, stats_only, isgenerated, _monitor, _tally, _ttally, start, (_t, _x) as pairs (last first), _weight,
    _ttally_monitored, the statistics of stats_only monitors for ex0 False and True, cached_xweight *)
Record mon := mkMon { m_level : bool; m_type : mtype; m_stats : bool; m_gen : bool; m_on : bool; m_tally : val; m_tt : Q; m_start : Q; m_e : list (Q * val); m_w : wts;
  m_ttm : Q; m_a0 : acc; m_a1 : acc; m_cache : list ((bool * bool) * (Q * xw)) }.
(** the environment: _now and _offset *)
Record menv := mkMenv { v_now : Q; v_off : Q }.
Definition m_off (m : mon) : val := off_of (m_type m).

Definition set_on (b : bool) (m : mon) : mon := mkMon (m_level m) (m_type m) (m_stats m) (m_gen m) b (m_tally m) (m_tt m) (m_start m) (m_e m) (m_w m) (m_ttm m) (m_a0 m) (m_a1 m) (m_cache m).
Definition set_stats (b : bool) (m : mon) : mon := mkMon (m_level m) (m_type m) b (m_gen m) (m_on m) (m_tally m) (m_tt m) (m_start m) (m_e m) (m_w m) (m_ttm m) (m_a0 m) (m_a1 m) (m_cache m).
Definition set_gen (m : mon) : mon := mkMon (m_level m) (m_type m) (m_stats m) true (m_on m) (m_tally m) (m_tt m) (m_start m) (m_e m) (m_w m) (m_ttm m) (m_a0 m) (m_a1 m) (m_cache m).
Definition set_tally (v : val) (t : Q) (m : mon) : mon := mkMon (m_level m) (m_type m) (m_stats m) (m_gen m) (m_on m) v t (m_start m) (m_e m) (m_w m) (m_ttm m) (m_a0 m) (m_a1 m) (m_cache m).
Definition set_tt (t : Q) (m : mon) : mon := set_tally (m_tally m) t m.
Definition set_start (t : Q) (m : mon) : mon := mkMon (m_level m) (m_type m) (m_stats m) (m_gen m) (m_on m) (m_tally m) (m_tt m) t (m_e m) (m_w m) (m_ttm m) (m_a0 m) (m_a1 m) (m_cache m).
Definition set_e (e : list (Q * val)) (m : mon) : mon := mkMon (m_level m) (m_type m) (m_stats m) (m_gen m) (m_on m) (m_tally m) (m_tt m) (m_start m) e (m_w m) (m_ttm m) (m_a0 m) (m_a1 m) (m_cache m).
Definition set_w (w : wts) (m : mon) : mon := mkMon (m_level m) (m_type m) (m_stats m) (m_gen m) (m_on m) (m_tally m) (m_tt m) (m_start m) (m_e m) w (m_ttm m) (m_a0 m) (m_a1 m) (m_cache m).
Definition set_ttm (t : Q) (m : mon) : mon := mkMon (m_level m) (m_type m) (m_stats m) (m_gen m) (m_on m) (m_tally m) (m_tt m) (m_start m) (m_e m) (m_w m) t (m_a0 m) (m_a1 m) (m_cache m).
Definition set_acc (a b : acc) (m : mon) : mon := mkMon (m_level m) (m_type m) (m_stats m) (m_gen m) (m_on m) (m_tally m) (m_tt m) (m_start m) (m_e m) (m_w m) (m_ttm m) a b (m_cache m).
Definition set_cache c (m : mon) : mon := mkMon (m_level m) (m_type m) (m_stats m) (m_gen m) (m_on m) (m_tally m) (m_tt m) (m_start m) (m_e m) (m_w m) (m_ttm m) (m_a0 m) (m_a1 m) c.

(** *** tallying *)
(** 1283-1290, for one value of ex0; None: ZeroDivisionError *)
Definition acc_add (x w : Q) (a : acc) : option acc :=
  let sw := a_w a + w in
  if Qeq_bool sw 0 then None else
  let mu1 := a_mu a in
  let mu := mu1 + (w / sw) * (x - mu1) in
  Some (mkAcc (S (a_n a)) mu (a_s a + w * (x - mu1) * (x - mu)) sw
    (Some (match a_min a with None => x | Some y => if Qltb x y then x else y end)) (Some (match a_max a with None => x | Some y => if Qltb y x then x else y end))).
(** 1330-1338: the end of the lists becomes off at t *)
Definition put_last (t : Q) (v : val) (e : list (Q * val)) : list (Q * val) :=
  match e with (s, x) :: r => if Qeq_bool s t then (s, v) :: r else (t, v) :: e | [] => [(t, v)] end.
Definition tally_off (v : menv) (m : mon) : mon * mres unit :=
  if m_gen m then (m, Mer MType) else
  match m_e m with [] => (m, Mer MIndex) | _ => (set_e (put_last (v_now v) (m_off m) (m_e m)) m, Mok tt) end.
(** the array of weights at the first weight <> 1, 1314-1320 *)
Definition add_weight (w : Q) (n : nat) (ws : wts) : wts :=
  if Qeq_bool w 1 then match ws with WList l => WList (w :: l) | x => x end
  else match ws with WList l => WList (w :: l) | _ => WList (w :: repeat 1 n) end.
(** tally 1242-1322. In a stats_only monitor that is off, value_num is not used. *)
Definition tally (x : val) (w : Q) (v : menv) (m : mon) : mon * mres unit :=
  if m_gen m then (m, Mer MType) else
  let now := v_now v in
  if m_stats m then
    if m_level m && negb (Qeq_bool w 1) then (m, Mer MValue) else
    let weight := if m_level m && m_on m then now - m_ttm m else w in
    let value := if m_level m then m_tally m else x in
    let m1 := if m_level m then set_tally x now (if m_on m then set_ttm now m else m) else m in
    if m_on m && negb (Qeq_bool weight 0) then
      let q := numq (numeric value) in
      match acc_add q weight (m_a0 m1) with
      | None => (m1, Mer MZero)
      | Some a0 => if Qeq_bool q 0 then (set_acc a0 (m_a1 m1) m1, Mok tt)
                   else match acc_add q weight (m_a1 m1) with None => (set_acc a0 (m_a1 m1) m1, Mer MZero) | Some a1 => (set_acc a0 a1 m1, Mok tt) end
      end
    else (m1, Mok tt)
  else
    let m := set_cache [] m in
    if m_level m then
      if negb (Qeq_bool w 1) then (m, Mer MValue) else
      if veqb x (m_off m) then (m, Mer MValue) else
      let m := set_tally x now m in
      if m_on m then
        match m_e m with
        | [] => (m, Mer MIndex)
        | (s, y) :: r => if fits (m_type m) x then (set_e (put_last now x (m_e m)) m, Mok tt) else (m, Mer MFit)
        end
      else (m, Mok tt)
    else if m_on m then
      let m := set_w (add_weight w (length (m_e m)) (m_w m)) m in
      if fits (m_type m) x then (set_e ((now, x) :: m_e m) m, Mok tt) else (m, Mer MFit)
    else (m, Mok tt).
(** _tally_add_now 1324-1328 *)
Definition tally_add_now (v : menv) (m : mon) : mon * mres unit :=
  let save := m_tt m in match tally (m_tally m) 1 v m with (m1, Mok _) => (set_tt save m1, Mok tt) | r => r end.
(** monitor 1195-1231 *)
Definition monitor (value : option bool) (v : menv) (m : mon) : mon * mres unit :=
  match value with
  | None => (m, Mok tt)
  | Some b =>
      if m_stats m then
        match (if m_on m && m_level m then tally_add_now v m else (m, Mok tt)) with
        | (m1, Mok _) => (set_on b (set_ttm (v_now v) m1), Mok tt)
        | r => r
        end
      else if b && m_gen m then (m, Mer MType) else
        let m := set_on b m in
        if m_level m then (if b then tally (m_tally m) 1 v m else tally_off v m) else (m, Mok tt)
  end.
(** reset 1138-1193. The fields of the other kind (stats_only or not) stay as they are. *)
Definition reset (mo so : option bool) (v : menv) (m : mon) : mon * mres unit :=
  if m_gen m then (m, Mer MType) else
  let m := match mo with Some b => set_on b m | None => m end in
  let m := match so with Some b => set_stats b m | None => m end in
  let m := set_start (v_now v) m in
  let m := if m_stats m then set_w WNo (set_acc acc0 acc0 (if m_level m then set_ttm (v_now v) m else m))
           else if m_level m then set_w WLevel (set_e [(v_now v, if m_on m then m_tally m else m_off m)] m)
           else set_w WNo (set_e [] m) in
  monitor mo v (set_cache [] m).
(** __init__ 434-473, without fill; initial_tally: a value that fits *)
Definition create (level : bool) (ty : mtype) (stats on : bool) (init : val) (v : menv) : mon * mres unit :=
  reset (Some on) None v (mkMon level ty stats false on (if level then init else Num 0) (v_now v) (v_now v) [] WNo (v_now v) acc0 acc0 []).

(** *** looking up *)
(** __call__ 1016-1030 *)
Definition call (t : option Q) (v : menv) (m : mon) : mres val :=
  if negb (m_level m) then Mer MType else
  match t with
  | None => Mok (m_tally m)
  | Some t =>
      let t := t + v_off v in
      if Qeq_bool t (v_now v) then Mok (m_tally m) else
      if m_stats m then Mer MNotImpl else
      match rev (m_e m) with
      | [] => Mer MIndex
      | (t0, _) :: _ =>
          if Qltb t t0 then Mok (m_off m) else
          match bisect (fun s => negb (Qltb t s)) (S (length (m_e m))) 0 (length (m_e m)) (map fst (rev (m_e m))) with
          | UOk (S i) => match nth_error (rev (m_e m)) i with Some (_, x) => Mok x | None => Mer MIndex end
          | _ => Mer MIndex
          end
      end
  end.

(** *** values with weights *)
(** 3132-3139: the durations of the entries (last first) until [e] *)
Fixpoint durs (e : Q) (l : list (Q * val)) : list (val * Q) := match l with [] => [] | (t, x) :: r => (x, e - t) :: durs t r end.
(** _xweight 3118-3171 without the cache *)
Definition xweight0 (ex0 force : bool) (v : menv) (m : mon) : xw :=
  let nz := fun x => negb ex0 || negb (veqb x (Num 0)) in
  let cv := fun x => if ty_any (m_type m) && force then numeric x else x in
  if m_level m then
    let l := filter (fun p => negb (veqb (fst p) (m_off m)) && nz (fst p)) (map (fun p => (cv (fst p), snd p)) (rev (durs (v_now v) (m_e m)))) in
    (map fst l, map snd l)
  else
    let x := map (fun p => cv (snd p)) (rev (m_e m)) in
    let x0 := filter nz x in
    match m_w m with
    | WList w => if ex0 then (x0, map snd (filter (fun p => nz (fst p)) (combine x (rev w)))) else (x, rev w)
    | _ => (x0, repeat 1 (length x0))
    end.
Definition key_eqb (a b : bool * bool) : bool := Bool.eqb (fst a) (fst b) && Bool.eqb (snd a) (snd b).
Fixpoint cget (k : bool * bool) (c : list ((bool * bool) * (Q * xw))) : option (Q * xw) := match c with [] => None | (k', r) :: t => if key_eqb k k' then Some r else cget k t end.
(** _xweight with the cache *)
Definition xweight (ex0 force : bool) (v : menv) (m : mon) : mon * xw :=
  match cget (ex0, force) (m_cache m) with
  | Some (t, r) => if Qeq_bool t (v_now v) then (m, r) else let r := xweight0 ex0 force v m in (set_cache (((ex0, force), (v_now v, r)) :: m_cache m) m, r)
  | None => let r := xweight0 ex0 force v m in (set_cache (((ex0, force), (v_now v, r)) :: m_cache m) m, r)
  end.

(** *** statistics; None: nan *)
Fixpoint wsum (l : list (val * Q)) : Q := match l with [] => 0 | (x, w) :: t => numq x * w + wsum t end.
Fixpoint vsum (mu : Q) (l : list (val * Q)) : Q := match l with [] => 0 | (x, w) :: t => w * ((numq x - mu) * (numq x - mu)) + vsum mu t end.
(** 1702-1706 *)
Definition mean_of (r : xw) : option Q := let '(x, w) := r in if Qeq_bool (sumQ w) 0 then None else Some (wsum (combine x w) / sumQ w).
(** 1735-1741, squared *)
Definition var_of (r : xw) : option Q :=
  let '(x, w) := r in if Qeq_bool (sumQ w) 0 then None else match mean_of r with None => None | Some mu => Some (vsum mu (combine x w) / sumQ w) end.
Definition min2 (a b : Q) := if Qltb b a then b else a.
Definition max2 (a b : Q) := if Qltb a b then b else a.
Definition min_of (x : list val) : option Q := match map numq x with [] => None | a :: r => Some (fold_left min2 r a) end.
Definition max_of (x : list val) : option Q := match map numq x with [] => None | a :: r => Some (fold_left max2 r a) end.
Definition acc_of (ex0 : bool) (m : mon) : acc := if ex0 then m_a1 m else m_a0 m.
(** mean 1675-1706 *)
Definition mean (ex0 : bool) (v : menv) (m : mon) : mon * mres (option Q) :=
  if m_stats m then
    match (if m_level m then tally_add_now v m else (m, Mok tt)) with
    | (m1, Mok _) => (m1, Mok (if Qeq_bool (a_w (acc_of ex0 m1)) 0 then None else Some (a_mu (acc_of ex0 m1))))
    | (m1, Mer e) => (m1, Mer e)
    end
  else let '(m1, r) := xweight ex0 true v m in (m1, Mok (mean_of r)).
(** std 1708-1741, squared *)
Definition var (ex0 : bool) (v : menv) (m : mon) : mon * mres (option Q) :=
  if m_stats m then
    match (if m_level m then tally_add_now v m else (m, Mok tt)) with
    | (m1, Mok _) => (m1, Mok (if Qeq_bool (a_w (acc_of ex0 m1)) 0 then None else Some (a_s (acc_of ex0 m1) / a_w (acc_of ex0 m1))))
    | (m1, Mer e) => (m1, Mer e)
    end
  else let '(m1, r) := xweight ex0 true v m in (m1, Mok (var_of r)).
(** minimum 1743-1767, maximum 1769-1793 *)
Definition minimum (ex0 : bool) (v : menv) (m : mon) : mon * option Q :=
  if m_stats m then (m, if Nat.eqb (a_n (acc_of ex0 m)) 0 then None else a_min (acc_of ex0 m)) else let '(m1, r) := xweight ex0 true v m in (m1, min_of (fst r)).
Definition maximum (ex0 : bool) (v : menv) (m : mon) : mon * option Q :=
  if m_stats m then (m, if Nat.eqb (a_n (acc_of ex0 m)) 0 then None else a_max (acc_of ex0 m)) else let '(m1, r) := xweight ex0 true v m in (m1, max_of (fst r)).
(** number_of_entries 2140-2164, weight and duration 2182-2230 *)
Definition number_of_entries (ex0 : bool) (v : menv) (m : mon) : mon * mres nat :=
  if m_level m then (m, Mer MType) else if m_stats m then (m, Mok (a_n (acc_of ex0 m))) else let '(m1, r) := xweight ex0 true v m in (m1, Mok (length (fst r))).
Definition sys_weight (ex0 : bool) (v : menv) (m : mon) : mon * Q :=
  if m_stats m then (m, a_w (acc_of ex0 m)) else let '(m1, r) := xweight ex0 true v m in (m1, sumQ (snd r)).
Definition weight (ex0 : bool) (v : menv) (m : mon) : mon * mres Q := if m_level m then (m, Mer MType) else let '(m1, r) := sys_weight ex0 v m in (m1, Mok r).
Definition duration (ex0 : bool) (v : menv) (m : mon) : mon * mres Q := if m_level m then let '(m1, r) := sys_weight ex0 v m in (m1, Mok r) else (m, Mer MType).

(** bounds of bins: a number or infinite *)
Inductive bound := BNegInf | BFin (q : Q) | BInf.
Definition above (b : bound) (x : Q) : bool := match b with BNegInf => true | BFin q => Qltb q x | BInf => false end.
Definition upto (b : bound) (x : Q) : bool := match b with BNegInf => false | BFin q => Qle_bool x q | BInf => true end.
Definition in_bin (lo hi : bound) (x : val) : bool := above lo (numq x) && upto hi (numq x).
(** 1990, 2044 *)
Definition bin_count (lo hi : bound) (r : xw) : nat := length (filter (in_bin lo hi) (fst r)).
Definition bin_weight_of (lo hi : bound) (r : xw) : Q := sumQ (map snd (filter (fun p => in_bin lo hi (fst p)) (combine (fst r) (snd r)))).
(** bin_number_of_entries 1963-1990, bin_weight 1992-2015, bin_duration 2017-2040 *)
Definition bin_number_of_entries (lo hi : bound) (ex0 : bool) (v : menv) (m : mon) : mon * mres nat :=
  if m_stats m then (m, Mer MNotImpl) else if m_level m then (m, Mer MType) else let '(m1, r) := xweight ex0 true v m in (m1, Mok (bin_count lo hi r)).
Definition bin_weight (lo hi : bound) (v : menv) (m : mon) : mon * mres Q :=
  if m_stats m then (m, Mer MNotImpl) else if m_level m then (m, Mer MType) else let '(m1, r) := xweight false true v m in (m1, Mok (bin_weight_of lo hi r)).
Definition bin_duration (lo hi : bound) (v : menv) (m : mon) : mon * mres Q :=
  if m_stats m then (m, Mer MNotImpl) else if negb (m_level m) then (m, Mer MType) else let '(m1, r) := xweight false true v m in (m1, Mok (bin_weight_of lo hi r)).
(** value_number_of_entries 2046-2077, value_weight and value_duration 2079-2138 *)
Definition is_one (vs : list val) (x : val) : bool := existsb (veqb x) vs.
Definition value_count (vs : list val) (r : xw) : nat := length (filter (is_one vs) (fst r)).
Definition value_weight_of (vs : list val) (r : xw) : Q := sumQ (map snd (filter (fun p => is_one vs (fst p)) (combine (fst r) (snd r)))).
Definition value_number_of_entries (vs : list val) (v : menv) (m : mon) : mon * mres nat :=
  if m_stats m then (m, Mer MNotImpl) else if m_level m then (m, Mer MType) else let '(m1, r) := xweight false false v m in (m1, Mok (value_count vs r)).
Definition value_weight (vs : list val) (v : menv) (m : mon) : mon * mres Q :=
  if m_stats m then (m, Mer MNotImpl) else if m_level m then (m, Mer MType) else let '(m1, r) := xweight false false v m in (m1, Mok (value_weight_of vs r)).
Definition value_duration (vs : list val) (v : menv) (m : mon) : mon * mres Q :=
  if m_stats m then (m, Mer MNotImpl) else if negb (m_level m) then (m, Mer MType) else let '(m1, r) := xweight false false v m in (m1, Mok (value_weight_of vs r)).

(** *** percentiles *)
Inductive ipol := Linear | Lower | Higher | Midpoint | Nearest.
(** sorted(zip(x, weight), key=…) 1919: stable *)
Fixpoint ins (p : Q * Q) (l : list (Q * Q)) : list (Q * Q) := match l with [] => [p] | a :: r => if Qltb (fst p) (fst a) then p :: l else a :: ins p r end.
Fixpoint psort_from (acc l : list (Q * Q)) : list (Q * Q) := match l with [] => acc | p :: r => psort_from (ins p acc) r end.
Definition psort (l : list (Q * Q)) : list (Q * Q) := psort_from [] l.
(** the first k >= k0 with f k, of n *)
Fixpoint scan (f : nat -> bool) (n k : nat) : option nat := match n with O => None | S n' => if f k then Some k else scan f n' (S k) end.
Definition xs_ (s : list (Q * Q)) (k : nat) : mres (option Q) := match nth_error s k with Some (x, _) => Mok (Some x) | None => Mer MIndex end.
Definition avg (s : list (Q * Q)) (k : nat) : mres (option Q) := match nth_error s k, nth_error s (S k) with Some (x, _), Some (y, _) => Mok (Some ((x + y) / 2)) | _, _ => Mer MIndex end.
(** 1922-1939 *)
Definition perc_weighted (q : Q) (ip : ipol) (sumw : Q) (s : list (Q * Q)) : mres (option Q) :=
  let n := length s in
  let cum := fun k => sumQ (map snd (firstn (S k) s)) / sumw in
  let k := match scan (fun k => Qle_bool q (cum k)) n 0 with Some k => k | None => (n - 1)%nat end in
  if negb (Qeq_bool (cum k) q) then xs_ s k else
  match ip with Linear | Midpoint => avg s k | Lower => xs_ s k | Higher => xs_ s (S k) | Nearest => Mer MValue end.
(** 1941-1961 *)
Definition perc_plain (q : Q) (ip : ipol) (s : list (Q * Q)) : mres (option Q) :=
  let n := length s in
  let cum := fun k : nat => inject_Z (Z.of_nat k) / inject_Z (Z.of_nat n - 1) in
  match scan (fun k => Qltb q (cum (S k))) (n - 1) 0 with
  | None => Mer MIndex
  | Some k =>
      match ip with
      | Linear => match nth_error s k, nth_error s (S k) with
                  | Some (x, _), Some (y, _) => Mok (interpolate1 q (Fin (cum k)) (Fin (cum (S k))) (Some x) (Some y))
                  | _, _ => Mer MIndex end
      | Lower => xs_ s k
      | Higher => xs_ s (S k)
      | Midpoint => avg s k
      | Nearest => if Qle_bool (q - cum k) (cum (S k) - q) then xs_ s k else xs_ s (S k)
      end
  end.
Definition weighted (m : mon) : bool := match m_w m with WNo => false | _ => true end.
(** percentile 1899-1961 *)
Definition percentile (q : Q) (ex0 : bool) (ip : ipol) (v : menv) (m : mon) : mon * mres (option Q) :=
  if m_stats m then (m, Mer MNotImpl) else
  if weighted m && match ip with Nearest => true | _ => false end then (m, Mer MValue) else
  let q := if Qltb q 0 then 0 else if Qltb 100 q then 100 else q in
  if Qeq_bool q 0 then let '(m1, r) := minimum ex0 v m in (m1, Mok r) else
  if Qeq_bool q 100 then let '(m1, r) := maximum ex0 v m in (m1, Mok r) else
  let q := q / 100 in
  let '(m1, (x, w)) := xweight ex0 true v m in
  match x with
  | [a] => (m1, Mok (Some (numq a)))
  | _ => if Qeq_bool (sumQ w) 0 then (m1, Mok None) else
         let s := psort (combine (map numq x) w) in
         (m1, if weighted m then perc_weighted q ip (sumQ w) s else perc_plain q ip s)
  end.

(** *** monitors made from monitors *)
(** _SystemMonitor(level, type, env): the new monitor, before _x, _t are filled *)
Definition fresh (level : bool) (ty : mtype) (v : menv) : mon := fst (create level ty false true (Num 0) v).
(** new.monitor(False); new.isgenerated = True *)
Definition finish (v : menv) (m : mon) : mres mon := match monitor (Some false) v m with (m1, Mok _) => Mok (set_gen m1) | (_, Mer e) => Mer e end.

(** heapq.merge on several lists: always the list with the smallest head (key, index) *)
Fixpoint best {A} (key : A -> Q) (i : nat) (ls : list (list A)) : option (nat * A) :=
  match ls with
  | [] => None
  | [] :: r => best key (S i) r
  | (a :: _) :: r => match best key (S i) r with Some (j, b) => if Qltb (key b) (key a) then Some (j, b) else Some (i, a) | None => Some (i, a) end
  end.
Fixpoint drop_head {A} (i : nat) (ls : list (list A)) : list (list A) := match i, ls with O, (_ :: t) :: r => t :: r | S k, l :: r => l :: drop_head k r | _, ls => ls end.
Fixpoint kmerge {A} (key : A -> Q) (fuel : nat) (ls : list (list A)) : list (nat * A) :=
  match fuel with O => [] | S k => match best key 0 ls with None => [] | Some (i, a) => (i, a) :: kmerge key k (drop_head i ls) end end.
Definition total {A} (ls : list (list A)) : nat := length (concat ls).
Definition hmerge {A} (key : A -> Q) (ls : list (list A)) : list (nat * A) := kmerge key (total ls) ls.
Fixpoint set_nth {A} (i : nat) (a : A) (l : list A) : list A := match i, l with O, _ :: r => a :: r | S k, x :: r => x :: set_nth k a r | _, [] => [] end.
(** 605-610: the sum, or off *)
Fixpoint sum_or_off (off : val) (s : Q) (l : list val) : val := match l with [] => Num s | x :: r => if veqb x off then off else sum_or_off off (s + numq x) r end.
(** 596-616: the loop over the merged entries; [e] last first *)
Fixpoint merge_loop (ty : mtype) (l : list (nat * (Q * val))) (cur : list val) (e : list (Q * val)) : mres (list (Q * val)) :=
  match l with
  | [] => Mok e
  | (i, (t, x)) :: r =>
      let cur := set_nth i (if ty_any ty then numeric x else x) cur in
      let s := sum_or_off (off_of ty) 0 cur in
      if fits ty s then merge_loop ty r cur (put_last t s e) else Mer MFit
  end.
(** 619-635 (non level); (entries, weights), last first *)
Fixpoint merge_plain (ty : mtype) (l : list (nat * (Q * val * Q))) (e : list (Q * val)) (w : wts) : mres (list (Q * val) * wts) :=
  match l with
  | [] => Mok (e, w)
  | (_, (t, x, wt)) :: r => if fits ty x then merge_plain ty r ((t, x) :: e) (add_weight wt (length e) w) else Mer MFit
  end.
(** the entries with their weights, in order 622 *)
Definition entries_w (m : mon) : list (Q * val * Q) := combine (rev (m_e m)) (match m_w m with WList w => rev w | _ => repeat 1 (length (m_e m)) end).
(** the type of the merged monitor 562-575 *)
Fixpoint merged_type (self ty : mtype) (ms : list mon) : mtype :=
  match ms with [] => ty | m :: r => let ty := if ty_eqb self (m_type m) then ty else TAny in merged_type self (if ty_eqb (m_type m) ty then ty else TAny) r end.
(** merge 558-638 *)
Definition merge (self : mon) (ms : list mon) (v : menv) : mres mon :=
  if m_stats self || existsb m_stats ms then Mer MNotImpl else
  if existsb (fun m => negb (Bool.eqb (m_level m) (m_level self))) ms then Mer MType else
  let ty := merged_type (m_type self) (m_type self) ms in
  let all := self :: ms in
  let new := fresh (m_level self) ty v in
  if m_level self then
    match merge_loop ty (hmerge fst (map (fun m => rev (m_e m)) all)) (repeat (off_of ty) (length all)) [] with
    | Mer e => Mer e
    | Mok e => match rev e with [] => Mer MIndex | (t0, _) :: _ => finish v (set_start t0 (set_e e new)) end
    end
  else
    match merge_plain ty (hmerge (fun p => fst (fst p)) (map entries_w all)) [] WNo with
    | Mer e => Mer e
    | Mok (e, w) => finish v (set_w w (set_e e new))
    end.

(** t_multiply 640-662 *)
Definition t_multiply (f : Q) (v : menv) (m : mon) : mres mon :=
  if negb (m_level m) then Mer MType else if Qle_bool f 0 then Mer MType else
  let new := set_start (m_start m * f) (set_e (map (fun p => (fst p * f, snd p)) (m_e m)) (fresh true (m_type m) v)) in
  match monitor (Some false) v new with
  | (m1, Mok _) => match m_e m1 with [] => Mer MIndex | (t, x) :: r => Mok (set_gen (set_e ((t * f, x) :: r) m1)) end
  | (_, Mer e) => Mer e
  end.
(** x_map 688-742, without other monitors; [f] total *)
Fixpoint map_level (f : val -> val) (l : list (Q * val)) (e : list (Q * val)) : list (Q * val) := match l with [] => e | (t, x) :: r => map_level f r (put_last t (if veqb x NegInf then NegInf else f x) e) end.
Definition x_map (f : val -> val) (v : menv) (m : mon) : mres mon :=
  let new := fresh (m_level m) TAny v in
  let any := map (fun p => (fst p, if veqb (snd p) (m_off m) then NegInf else snd p)) (rev (m_e m)) in
  if m_level m then
    let e := map_level f any [] in
    match rev e with [] => Mer MIndex | (t0, _) :: _ => finish v (set_start t0 (set_e e new)) end
  else finish v (set_e (rev (map (fun p => (fst p, if veqb (snd p) NegInf then NegInf else f (snd p))) any)) new).
(** multiply 1593-1607; the values become a list of floats *)
Definition multiply (scale : Q) (v : menv) (m : mon) : mres mon :=
  if m_stats m then Mer MNotImpl else if m_level m then Mer MValue else
  match m_type m with
  | TFloat => Mok (set_e (map (fun p => (fst p, Num (numq (snd p) * scale))) (m_e m)) (set_gen (fst (create false TFloat false false (Num 0) v))))
  | _ => Mer MValue
  end.

(** *** slices *)
(** a % m for floats, m > 0 *)
Definition qmod (a m : Q) : Q := a - inject_Z (Qfloor (a / m)) * m.
(** what is merged: "a" start, "b" stop, "c" an entry with its weight, "z" inclusive stop; they sort on time, then on the letter *)
Inductive act := Aa | Ab | Ac (x : val) (w : Q) | Az.
Definition letter (a : act) : nat := match a with Aa => 0 | Ab => 1 | Ac _ _ => 2 | Az => 3 end%nat.
Definition act_leb (p q : Q * act) : bool := if Qeq_bool (fst p) (fst q) then Nat.leb (letter (snd p)) (letter (snd q)) else Qltb (fst p) (fst q).
(** heapq.merge(actions, entries) *)
Fixpoint merge2 (a : list (Q * act)) : list (Q * act) -> list (Q * act) :=
  match a with
  | [] => fun b => b
  | x :: a' => fix go b := match b with [] => a | y :: b' => if act_leb x y then x :: merge2 a' b else y :: go b' end
  end.
(** the while loop 855-858; fuel: enough *)
Fixpoint mod_actions (fuel : nat) (start1 len1 modulo now : Q) : mres (list (Q * act)) :=
  match fuel with
  | O => Mer MFuel
  | S k => if Qltb start1 now then match mod_actions k (start1 + modulo) len1 modulo now with Mok l => Mok ((start1, Aa) :: (start1 + len1, Ab) :: l) | e => e end else Mok []
  end.
(** the level part of the loop 896-928: curx, enabled, new entries (last first) *)
Definition join (t : Q) (x : val) (e : list (Q * val)) : list (Q * val) :=
  match e with
  | (s, y) :: r => if Qeq_bool s t then (s, x) :: r else if veqb y x then (t, y) :: r else (t, x) :: e
  | [] => [(t, x)]
  end.
Fixpoint slice_level (off : val) (l : list (Q * act)) (curx : val) (en : bool) (e : list (Q * val)) : list (Q * val) :=
  match l with
  | [] => e
  | (t, a) :: r =>
      match a with
      | Aa => slice_level off r curx true (join t curx e)
      | Ab | Az => slice_level off r curx false (join t off e)
      | Ac x _ => slice_level off r x en (if en then (if veqb curx x then e else join t x e) else e)
      end
  end.
(** the non level part 929-944 *)
Fixpoint slice_plain (l : list (Q * act)) (en : bool) (e : list (Q * val)) (w : wts) : list (Q * val) * wts :=
  match l with
  | [] => (e, w)
  | (t, a) :: r =>
      match a with
      | Aa => slice_plain r true e w
      | Ab | Az => slice_plain r false e w
      | Ac x wt => if en then slice_plain r en ((t, x) :: e) (add_weight wt (length e) w) else slice_plain r en e w
      end
  end.
(** slice 819-947. With start None, heapq.merge compares None with a number: TypeError, unless there are no entries. *)
Definition slice (start stop modulo : option Q) (v : menv) (m : mon) : mres mon :=
  if m_stats m then Mer MNotImpl else
  let new := fresh (m_level m) (m_type m) v in
  let acts : mres (list (Q * act)) :=
    match modulo with
    | None =>
        let '(stp, sa) := match stop with None => (v_now v - v_off v, Az) | Some s => (let s := s + v_off v in let n := v_now v - v_off v in if Qltb n s then n else s, Ab) end in
        match start with
        | None => match m_e m with [] => Mok [(0, Aa); (stp, sa)] | _ => Mer MType end
        | Some s => Mok [(s, Aa); (stp, sa)]
        end
    | Some mo =>
        match start, stop with
        | Some s, Some e =>
            if Qle_bool e s then Mer MValue else if Qle_bool mo (e - s) then Mer MValue else
            match rev (m_e m) with
            | [] => Mer MIndex
            | (t0, _) :: _ =>
                let st := qmod s mo in
                let start1 := t0 - qmod t0 mo + st in
                let len1 := qmod (qmod e mo - st) mo in
                mod_actions (S (Z.to_nat (Qceiling ((v_now v - start1) / mo)))) start1 len1 mo (v_now v)
            end
        | _, _ => Mer MType
        end
    end in
  match acts with
  | Mer e => Mer e
  | Mok acts =>
      let l := merge2 acts (map (fun p => (fst (fst p), Ac (snd (fst p)) (snd p))) (if m_level m then map (fun p => (p, 1)) (rev (m_e m)) else entries_w m)) in
      if m_level m then finish v (set_e (slice_level (m_off m) l (m_off m) false [(m_start m, m_off m)]) new)
      else let '(e, w) := slice_plain l false [] WNo in finish v (set_w w (set_e e new))
  end.

(** *** executions: one monitor, in an environment of which the time passes *)
Inductive mop := OTally (x : val) (w : Q) | OMonitor (b : bool) | OReset (mo so : option bool) | OTick (dt : Q) | OResetNow (off : Q) | OStat (ex0 force : bool) | OMean.
(** OStat: any statistic that calls _xweight; OMean: mean or std of a stats_only monitor; the results are in the theorems.
    OResetNow: env.reset_now 13160 *)
Definition mexec (o : mop) (s : menv * mon) : (menv * mon) * mres unit :=
  let '(v, m) := s in
  match o with
  | OTally x w => let '(m1, r) := tally x w v m in ((v, m1), r)
  | OMonitor b => let '(m1, r) := monitor (Some b) v m in ((v, m1), r)
  | OReset mo so => let '(m1, r) := reset mo so v m in ((v, m1), r)
  | OTick dt => ((mkMenv (v_now v + dt) (v_off v), m), Mok tt)
  | OResetNow off => ((mkMenv (v_now v) off, m), Mok tt)
  | OStat ex0 force => if m_stats m then (s, Mok tt) else ((v, fst (xweight ex0 force v m)), Mok tt)
  | OMean => if m_stats m && m_level m then let '(m1, r) := tally_add_now v m in ((v, m1), r) else (s, Mok tt)
  end.
