(** Distributions (salabim.py 20818-23486). Modelled: Exponential, Normal, IntUniform, Uniform, Triangular, Constant, Weibull, Gamma, Beta, Erlang, Cdf, Pdf/Pmf, CumPdf/CumPmf,
    Bounded, Map and the arithmetic expressions of distributions (_Expression): construction with its checks, sample() and mean().
    Numbers are exact rationals (no rounding of floats). The random stream is a record of functions of an abstract state; only uniform() and triangular(), which the Python library computes
    from random(), are written out. Not modelled: Poisson, External, the parser of Distribution, printing, checks of the randomstream argument, powers (__pow__) of distributions. *)
From Coq Require Import QArith Qabs Qround List Bool ZArith Lia Lqa.
From Verif Require Import Base Util.
Import ListNotations.
Open Scope Q_scope.

(** the exceptions raised *)
Inductive derr := DValue | DType | DIndex | DAttr | DZero.
Inductive dres (A : Type) := DOk (a : A) | DEr (e : derr).
Arguments DOk {A}. Arguments DEr {A}.
Definition dbind {A B} (x : dres A) (k : A -> dres B) : dres B := match x with DOk a => k a | DEr e => DEr e end.

(** ** The random stream *)
(** The functions of random.Random that are used. gr_sqrt is math.sqrt, used by triangular(); gr_pick n k: the positions chosen by sample(population of n, k). *)
Record rng (St : Type) := mkRng {
  gr_random : St -> Q * St;
  gr_expo : Q -> St -> Q * St;
  gr_gauss : Q -> Q -> St -> Q * St;
  gr_normal : Q -> Q -> St -> Q * St;
  gr_randint : Z -> Z -> St -> Z * St;
  gr_weib : Q -> Q -> St -> Q * St;
  gr_gamma : Q -> Q -> St -> Q * St;
  gr_beta : Q -> Q -> St -> Q * St;
  gr_sqrt : Q -> Q;
  gr_pick : nat -> nat -> St -> list nat * St }.
Arguments gr_random {St}. Arguments gr_expo {St}. Arguments gr_gauss {St}. Arguments gr_normal {St}. Arguments gr_randint {St}. Arguments gr_weib {St}. Arguments gr_gamma {St}.
Arguments gr_beta {St}. Arguments gr_sqrt {St}. Arguments gr_pick {St}. Arguments mkRng {St}.

(** Python library, random.uniform: a + (b - a) * random() *)
Definition py_uniform {St} (G : rng St) (a b : Q) (s : St) : Q * St := let '(r, s1) := gr_random G s in (a + (b - a) * r, s1).
(** Python library, random.triangular: u = random(); c = (mode - low) / (high - low), and low if high = low; if u > c: u = 1 - u; c = 1 - c; low, high = high, low;
    low + (high - low) * sqrt(u * c) *)
Definition py_triangular {St} (G : rng St) (low high mode : Q) (s : St) : Q * St :=
  let '(u, s1) := gr_random G s in
  if Qeq_bool high low then (low, s1) else
  let c := (mode - low) / (high - low) in
  if Qltb c u then (high + (low - high) * gr_sqrt G ((1 - u) * (1 - c)), s1)
  else (low + (high - low) * gr_sqrt G (u * c), s1).

(** ** The distributions *)
(** the operators of _Expression 20878-20912 (operator.pow left out) *)
Inductive dop := OAdd | OSub | OMul | ODiv | OFloor.
(** A distribution object: the attributes set by __init__ ; f: time_unit_factor. A value of a Pdf and an operand of an expression is a number, another object or a distribution. *)
Inductive dist : Type :=
| DExpo (mean f : Q)
| DNormal (mean sd : Q) (use_gauss : bool) (f : Q)
| DInt (lo hi : Q) (f : Q)
| DUni (lo hi f : Q)
| DTri (low high mode f : Q)
| DConst (value f : Q)
| DWeib (scale shape mean f : Q)
| DGamma (shape scale f : Q)
| DBeta (alpha beta : Q)
| DErlang (shape rate f : Q)
| DCdf (xs : list (Q * Q)) (mean : Q)
| DPdf (xs : list (pval * Q)) (mean : option Q) (supports_n : bool)
| DCum (xs : list (pval * Q)) (mean : option Q)
| DExpr (op : dop) (a b : pval)
| DMap (d : dist) (g : Q -> Q)
| DBounded (d : dist) (lo hi : option Q) (inclo inchi : bool) (fail : Q) (retries : nat)
with pval : Type := PNum (q : Q) | POth (i : nat) | PDist (d : dist).

(** what sample() gives: a number, another object, a distribution object, or None *)
Inductive val := VNum (q : Q) | VOth (i : nat) | VObj (d : dist) | VNone.

(** ** Construction *)
Definition is_int (q : Q) : bool := Qeq_bool q (inject_Z (Qfloor q)).
(** Exponential.__init__ 21243-21264 *)
Definition new_expo (mean rate : option Q) (f : Q) : dres dist :=
  match mean, rate with
  | None, None => DEr DType
  | None, Some r => if Qle_bool r 0 then DEr DValue else DOk (DExpo (1 / r) f)
  | Some m, None => if Qle_bool m 0 then DEr DValue else DOk (DExpo m f)
  | Some _, Some _ => DEr DType
  end.
(** Normal.__init__ 21367-21398 *)
Definition new_normal (mean : Q) (sd cov : option Q) (use_gauss : bool) (f : Q) : dres dist :=
  dbind (match sd, cov with
         | None, None => DOk 0
         | None, Some c => if Qeq_bool mean 0 then DEr DValue else DOk (c * mean)
         | Some s, None => DOk s
         | Some _, Some _ => DEr DType
         end)
        (fun s => if Qltb s 0 then DEr DValue else DOk (DNormal mean s use_gauss f)).
(** IntUniform.__init__ 21502-21524 *)
Definition new_int (lo : Q) (hi : option Q) (f : Q) : dres dist :=
  let hi := match hi with None => lo | Some h => h end in
  if Qltb hi lo then DEr DValue else if negb (is_int lo) then DEr DType else if negb (is_int hi) then DEr DType else DOk (DInt lo hi f).
(** Uniform.__init__ 21610-21624 *)
Definition new_uni (lo : Q) (hi : option Q) (f : Q) : dres dist :=
  let hi := match hi with None => lo | Some h => h end in
  if Qltb hi lo then DEr DValue else DOk (DUni lo hi f).
(** Triangular.__init__ 21717-21739 *)
Definition new_tri (low : Q) (high mode : option Q) (f : Q) : dres dist :=
  let high := match high with None => low | Some h => h end in
  let mode := match mode with None => (high + low) / 2 | Some m => m end in
  if Qltb high low then DEr DValue else if Qltb mode low then DEr DValue else if Qltb high mode then DEr DValue else DOk (DTri low high mode f).
(** Constant.__init__ 21821-21830 *)
Definition new_const (v f : Q) : dres dist := DOk (DConst v f).
(** Weibull.__init__ 22022-22034; gm: math.gamma((1 / shape) + 1) *)
Definition new_weib (scale shape gm f : Q) : dres dist := if Qle_bool shape 0 then DEr DValue else DOk (DWeib scale shape (scale * gm) f).
(** Gamma.__init__ 22130-22156 *)
Definition new_gamma (shape : Q) (scale rate : option Q) (f : Q) : dres dist :=
  if Qle_bool shape 0 then DEr DValue else
  match scale, rate with
  | None, None => DEr DType
  | Some c, None => if Qle_bool c 0 then DEr DValue else DOk (DGamma shape c f)
  | None, Some r => if Qle_bool r 0 then DEr DValue else DOk (DGamma shape (1 / r) f)
  | Some _, Some _ => DEr DType
  end.
(** Beta.__init__ 22230-22244 *)
Definition new_beta (alpha beta : Q) : dres dist := if Qle_bool alpha 0 then DEr DValue else if Qle_bool beta 0 then DEr DValue else DOk (DBeta alpha beta).
(** Erlang.__init__ 22343-22371 *)
Definition new_erlang (shape : Q) (rate scale : option Q) (f : Q) : dres dist :=
  if negb (is_int shape) then DEr DType else if Qle_bool shape 0 then DEr DValue else
  match rate, scale with
  | None, None => DEr DType
  | None, Some c => if Qle_bool c 0 then DEr DValue else DOk (DErlang shape (1 / c) f)
  | Some r, None => if Qle_bool r 0 then DEr DValue else DOk (DErlang shape r f)
  | Some _, Some _ => DEr DValue
  end.

(** Cdf.__init__ 22463-22498. Simplified: the specification is a list of pairs (x, cum), so the checks of 22478 for one number only and of 22482 are not there. *)
Fixpoint cdf_loop (f : Q) (lastx : option Q) (lastcum : Q) (spec : list (Q * Q)) : dres (list (Q * Q) * Q) :=
  match spec with
  | [] => DOk ([], lastcum)
  | (x, c) :: spec =>
      let x := x * f in
      if (match lastx with None => false | Some y => Qltb x y end) then DEr DValue else
      if Qltb c lastcum then DEr DValue else
      dbind (cdf_loop f (Some x) c spec) (fun '(l, last) => DOk ((x, c) :: l, last))
  end.
Fixpoint cdf_mean (l : list (Q * Q)) : Q :=
  match l with
  | (x0, c0) :: (((x1, c1) :: _) as l') => (x0 + x1) / 2 * (c1 - c0) + cdf_mean l'
  | _ => 0
  end.
Definition new_cdf (spec : list (Q * Q)) (f : Q) : dres dist :=
  match spec with
  | [] => DEr DType
  | (_, c0) :: _ =>
      if negb (Qeq_bool c0 0) then DEr DValue else
      dbind (cdf_loop f None 0 spec) (fun '(l, last) =>
        if Qeq_bool last 0 then DEr DValue else
        let l := map (fun '(x, c) => (x, c / last)) l in DOk (DCdf l (cdf_mean l)))
  end.

(** the attribute _mean: None: there is none (_Expression 20936, Map 21047, Bounded 21126 do not set it); Some None: nan.
    21251 21379 21524 21624 21739 21830 22034 22156 22244 22371 22498 22670 23012 *)
Definition mean_attr (d : dist) : option (option Q) :=
  match d with
  | DExpo m _ => Some (Some m)
  | DNormal m _ _ _ => Some (Some m)
  | DInt lo hi _ => Some (Some ((lo + hi) / 2))
  | DUni lo hi _ => Some (Some ((lo + hi) / 2))
  | DTri low high mode _ => Some (Some ((low + mode + high) / 3))
  | DConst v f => Some (Some (v * f))
  | DWeib _ _ m _ => Some (Some m)
  | DGamma shape scale _ => Some (Some (shape * scale))
  | DBeta a b => Some (Some (a / (a + b)))
  | DErlang shape rate _ => Some (Some (shape / rate))
  | DCdf _ m => Some (Some m)
  | DPdf _ m _ => Some m
  | DCum _ m => Some m
  | DExpr _ _ _ | DMap _ _ | DBounded _ _ _ _ _ _ _ => None
  end.
(** the value added to the mean for a value of a Pdf 22658-22663: x._mean of a distribution (AttributeError if there is none), no mean if x is no number *)
Definition mean_of_x (x : pval) : dres (option Q) :=
  match x with
  | PNum q => DOk (Some q)
  | POth _ => DOk None
  | PDist d => match mean_attr d with None => DEr DAttr | Some m => DOk m end
  end.
(** x in the time unit 22647-22653 (u: the factor, None if no time unit is given) *)
Definition in_unit (u : option Q) (x : pval) : dres pval :=
  match u with
  | None => DOk x
  | Some f => match x with PNum q => DOk (PNum (q * f)) | _ => DEr DType end
  end.
(** sumxp, nan as soon as one of the terms is *)
Definition oadd (a : option Q) (b : option Q) (p : Q) : option Q := match a, b with Some a, Some b => Some (a + b * p) | _, _ => None end.
(** the loop 22646-22663 of Pdf.__init__ *)
Fixpoint pdf_loop (u : option Q) (sump : Q) (sumxp : option Q) (l : list (pval * Q)) : dres (list (pval * Q) * Q * option Q) :=
  match l with
  | [] => DOk ([], sump, sumxp)
  | (x, p) :: l =>
      dbind (in_unit u x) (fun x =>
      let sump := sump + p in
      dbind (mean_of_x x) (fun m =>
      dbind (pdf_loop u sump (oadd sumxp m p) l) (fun '(r, s, sx) => DOk ((x, sump) :: r, s, sx))))
  end.
(** the end 22665-22672: the cumulative values are divided by the sum *)
Definition scale_cum (l : list (pval * Q)) (sump : Q) : list (pval * Q) := map (fun '(x, c) => (x, c / sump)) l.
Definition scale_mean (m : option Q) (sump : Q) : option Q := match m with Some m => Some (m / sump) | None => None end.
(** probabilities[1:] == probabilities[:-1] 22644 *)
Fixpoint all_equal (ps : list Q) : bool := match ps with p :: ((q :: _) as ps') => Qeq_bool p q && all_equal ps' | _ => true end.
(** Pdf.__init__ 22611-22672. Simplified: the specification is a list of pairs (x, probability), so the checks of 22633 and 22639 are not there. (An empty one gives TypeError instead of
    ValueError if the probabilities are given separately.) *)
Definition new_pdf (l : list (pval * Q)) (u : option Q) : dres dist :=
  match l with
  | [] => DEr DType
  | _ => dbind (pdf_loop u 0 (Some 0) l) (fun '(r, sump, sumxp) =>
           if Qeq_bool sump 0 then DEr DValue else DOk (DPdf (scale_cum r sump) (scale_mean sumxp sump) (all_equal (map snd l))))
  end.
(** the loop 22986-23005 of CumPdf.__init__ *)
Fixpoint cum_loop (u : option Q) (sump : Q) (sumxp : option Q) (l : list (pval * Q)) : dres (list (pval * Q) * Q * option Q) :=
  match l with
  | [] => DOk ([], sump, sumxp)
  | (x, c) :: l =>
      dbind (in_unit u x) (fun x =>
      let p := c - sump in
      if Qltb p 0 then DEr DValue else
      let sump := sump + p in
      dbind (mean_of_x x) (fun m =>
      dbind (cum_loop u sump (oadd sumxp m p) l) (fun '(r, s, sx) => DOk ((x, sump) :: r, s, sx))))
  end.
(** CumPdf.__init__ 22954-23014 *)
Definition new_cum (l : list (pval * Q)) (u : option Q) : dres dist :=
  match l with
  | [] => DEr DType
  | _ => dbind (cum_loop u 0 (Some 0) l) (fun '(r, sump, sumxp) =>
           if Qeq_bool sump 0 then DEr DValue else DOk (DCum (scale_cum r sump) (scale_mean sumxp sump)))
  end.

(** _Expression.__init__ 20936-20945: a Constant is replaced by its _mean *)
Definition operand (x : pval) : pval := match x with PDist (DConst v f) => PNum (v * f) | _ => x end.
Definition new_expr (op : dop) (a b : pval) : dist := DExpr op (operand a) (operand b).
(** Bounded.__init__ 21114-21141 *)
Definition new_bounded (d : dist) (lo hi fail : option Q) (retries : option nat) (inclo inchi : bool) (f : Q) : dres dist :=
  let lo := option_map (fun q => q * f) lo in
  let hi := option_map (fun q => q * f) hi in
  if (match lo, hi with Some l, Some h => Qltb h l | _, _ => false end) then DEr DValue else
  let fail := match fail with Some v => v | None => match lo, hi with Some l, _ => l | None, Some h => h | None, None => 0 end end in
  DOk (DBounded d lo hi inclo inchi fail (match retries with None => 100%nat | Some n => n end)).

(** ** Sampling *)
(** the operators; an operand that is no number gives TypeError (simplified: Python can add strings) *)
Definition apply_op (op : dop) (a b : val) : dres val :=
  match a, b with
  | VNum x, VNum y =>
      match op with
      | OAdd => DOk (VNum (x + y)) | OSub => DOk (VNum (x - y)) | OMul => DOk (VNum (x * y))
      | ODiv => if Qeq_bool y 0 then DEr DZero else DOk (VNum (x / y))
      | OFloor => if Qeq_bool y 0 then DEr DZero else DOk (VNum (inject_Z (Qfloor (x / y))))
      end
  | _, _ => DEr DType
  end.
(** the loop of Cdf.sample 22533-22537; (px, pc): the previous point *)
Fixpoint cdf_find (r : Q) (prev : option (Q * Q)) (l : list (Q * Q)) : dres val :=
  match l with
  | [] => match prev with Some (x, _) => DOk (VNum x) | None => DEr DIndex end
  | (x, c) :: l' =>
      if Qltb r c then
        match prev with
        | Some (px, pc) => match interpolate1 r (Fin pc) (Fin c) (Some px) (Some x) with Some z => DOk (VNum z) | None => DEr DType end
        | None => DEr DIndex (* index -1, the last point: not reached, see C46_linear *)
        end
      else cdf_find r (Some (x, c)) l'
  end.
(** the bounds 21153 *)
Definition within (lo hi : option Q) (inclo inchi : bool) (q : Q) : bool :=
  (match lo with None => true | Some l => if inclo then Qle_bool l q else Qltb l q end) && (match hi with None => true | Some h => if inchi then Qle_bool q h else Qltb q h end).
(** an object of a list of values as it is *)
Definition as_is (x : pval) : val := match x with PNum q => VNum q | POth i => VOth i | PDist d => VObj d end.
(** sample(): 21301 21442 21561 21661 21777 21866 22071 22194 22281 22409 22527-22537 22701-22740 (n not given) 23043-23054 20947-20961 21051-21053 21143-21156 *)
Fixpoint sample {St} (G : rng St) (d : dist) (s : St) {struct d} : dres val * St :=
  match d with
  | DExpo m f => let '(x, s1) := gr_expo G (1 / m) s in (DOk (VNum (x * f)), s1)
  | DNormal m sd ug f => let '(x, s1) := if ug then gr_gauss G m sd s else gr_normal G m sd s in (DOk (VNum (x * f)), s1)
  | DInt lo hi f => let '(k, s1) := gr_randint G (Qfloor lo) (Qfloor hi) s in (DOk (VNum (inject_Z k * f)), s1)
  | DUni lo hi f => let '(x, s1) := py_uniform G lo hi s in (DOk (VNum (x * f)), s1)
  | DTri low high mode f => let '(x, s1) := py_triangular G low high mode s in (DOk (VNum (x * f)), s1)
  | DConst v f => (DOk (VNum (v * f)), s)
  | DWeib scale shape _ f => let '(x, s1) := gr_weib G scale shape s in (DOk (VNum (x * f)), s1)
  | DGamma shape scale f => let '(x, s1) := gr_gamma G shape scale s in (DOk (VNum (x * f)), s1)
  | DBeta a b => let '(x, s1) := gr_beta G a b s in (DOk (VNum x), s1)
  | DErlang shape rate f => let '(x, s1) := gr_gamma G shape (1 / rate) s in (DOk (VNum (x / f)), s1)
  | DCdf l _ => let '(r, s1) := gr_random G s in (cdf_find r None l, s1)
  | DPdf l _ true => let '(is, s1) := gr_pick G (length l) 1 s in
      (match is with i :: _ => match nth_error l i with Some (x, _) => DOk (as_is x) | None => DEr DIndex end | [] => DEr DIndex end, s1)
  | DPdf l _ false | DCum l _ =>
      let '(r, s1) := gr_random G s in
      if Qle_bool r 0 then (DOk (VNum 0), s1) else
      (fix go (l : list (pval * Q)) : dres val * St :=
         match l with
         | [] => (DOk VNone, s1)
         | (x, c) :: l => if Qle_bool r c then match x with PNum q => (DOk (VNum q), s1) | POth i => (DOk (VOth i), s1) | PDist d => sample G d s1 end else go l
         end) l
  | DExpr op a b =>
      let '(v0, s1) := match a with PNum q => (DOk (VNum q), s) | POth i => (DOk (VOth i), s) | PDist d => sample G d s end in
      match v0 with
      | DEr e => (DEr e, s1)
      | DOk v0 =>
          let '(v1, s2) := match b with PNum q => (DOk (VNum q), s1) | POth i => (DOk (VOth i), s1) | PDist d => sample G d s1 end in
          match v1 with DEr e => (DEr e, s2) | DOk v1 => (apply_op op v0 v1, s2) end
      end
  | DMap d g => let '(v, s1) := sample G d s in (match v with DOk (VNum q) => DOk (VNum (g q)) | DOk _ => DEr DType | DEr e => DEr e end, s1)
  | DBounded d lo hi inclo inchi fail retries =>
      match lo, hi with
      | None, None => sample G d s
      | _, _ =>
          (fix try (n : nat) (s : St) : dres val * St :=
             match n with
             | O => (DOk (VNum fail), s)
             | S n => let '(v, s1) := sample G d s in
                 match v with
                 | DEr e => (DEr e, s1)
                 | DOk (VNum q) => if within lo hi inclo inchi q then (DOk (VNum q), s1) else try n s1
                 | DOk v => (DOk v, s1)
                 end
             end) retries s
      end
  end.
(** a value of a Pdf, sampled if it is a distribution 22736-22738 *)
Definition sample_x {St} (G : rng St) (x : pval) (s : St) : dres val * St := match x with PNum q => (DOk (VNum q), s) | POth i => (DOk (VOth i), s) | PDist d => sample G d s end.
(** Pdf.sample(n) with n given 22722-22740; the positions are chosen first, then the values are sampled in turn *)
Fixpoint sample_list {St} (G : rng St) (l : list (pval * Q)) (is : list nat) (s : St) : dres (list val) * St :=
  match is with
  | [] => (DOk [], s)
  | i :: is =>
      match nth_error l i with
      | None => (DEr DIndex, s)
      | Some (x, _) => let '(v, s1) := sample_x G x s in
          match v with DEr e => (DEr e, s1) | DOk v => let '(vs, s2) := sample_list G l is s1 in match vs with DEr e => (DEr e, s2) | DOk vs => (DOk (v :: vs), s2) end end
      end
  end.
Definition sample_n {St} (G : rng St) (d : dist) (n : Z) (s : St) : dres (list val) * St :=
  match d with
  | DPdf l _ true =>
      if (n <? 0)%Z then (DEr DValue, s) else
      let '(is, s1) := gr_pick G (length l) (Nat.min (Z.to_nat n) (length l)) s in sample_list G l is s1
  | DPdf _ _ false => (DEr DValue, s)
  | _ => (DEr DType, s) (* no such argument *)
  end.

(** ** mean() 21309 21452 21569 21669 21785 21874 22079 22202 22289 22417 22545 22750 23064 20963-21001 21055 21158-21167; None: nan *)
Definition m_op (op : dop) (da db : bool) (a b : option Q) : dres (option Q) :=
  match op with
  | OAdd => DOk (match a, b with Some a, Some b => Some (a + b) | _, _ => None end)
  | OSub => DOk (match a, b with Some a, Some b => Some (a - b) | _, _ => None end)
  | OMul => DOk (if da && db then None else match a, b with Some a, Some b => Some (a * b) | _, _ => None end)
  | ODiv => if db then DOk None else match b with Some b' => if Qeq_bool b' 0 then DEr DZero else DOk (match a with Some a => Some (a / b') | None => None end) | None => DOk None end
  | OFloor => DOk None
  end.
Definition is_dist (x : pval) : bool := match x with PDist _ => true | _ => false end.
Fixpoint mean (d : dist) : dres (option Q) :=
  match d with
  | DExpo m f => DOk (Some (m * f))
  | DNormal m _ _ f => DOk (Some (m * f))
  | DInt lo hi f => DOk (Some ((lo + hi) / 2 * f))
  | DUni lo hi f => DOk (Some ((lo + hi) / 2 * f))
  | DTri low high mode f => DOk (Some ((low + mode + high) / 3 * f))
  | DConst v f => DOk (Some (v * f * f))
  | DWeib _ _ m f => DOk (Some (m * f))
  | DGamma shape scale f => DOk (Some (shape * scale * f))
  | DBeta a b => DOk (Some (a / (a + b)))
  | DErlang shape rate f => DOk (Some (shape / rate / f))
  | DCdf _ m => DOk (Some m)
  | DPdf _ m _ => DOk m
  | DCum _ m => DOk m
  | DExpr op a b =>
      dbind (match a with PNum q => DOk (Some q) | POth _ => DEr DType | PDist d => mean d end) (fun m0 =>
      dbind (match b with PNum q => DOk (Some q) | POth _ => DEr DType | PDist d => mean d end) (fun m1 => m_op op (is_dist a) (is_dist b) m0 m1))
  | DMap _ _ => DOk None
  | DBounded d lo hi _ _ _ _ => match lo, hi with None, None => mean d | _, _ => DOk None end
  end.
