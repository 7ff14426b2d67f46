(** The conditions of Component.wait: how the value given with a state is tested (9191-9223, 9238-9274).
    Simplified: values are truth values, integers, texts and tuples of those; of python expressions those with and, or, not, comparisons (also chained), in, +, -, *, **,
    unary minus, numbers, text literals, names, tuples and brackets, given as tokens.  The text of a state value is taken to form tokens of its own (no "1$").
    state._value is one token. *)
From Coq Require Import ZArith NArith List Bool String Ascii Lia DecimalString.
Import ListNotations.

(** ** Values *)
Inductive val := VB (b : bool) | VI (z : Z) | VS (s : string) | VT (l : list val).
Inductive exc := NameError | SyntaxError | TypeError | AttributeError | Unmodelled | Fuel.
Inductive out := Val (v : val) | Exc (e : exc).

(** truth values count as the integers 0 and 1 *)
Definition as_int (v : val) : option Z := match v with VB b => Some (if b then 1 else 0)%Z | VI z => Some z | _ => None end.
(** == *)
Fixpoint py_eq (a b : val) {struct a} : bool :=
  match a, b with
  | VS s, VS t => String.eqb s t
  | VT l, VT m =>
    (fix go (l m : list val) : bool :=
       match l, m with [], [] => true | x :: l', y :: m' => py_eq x y && go l' m' | _, _ => false end) l m
  | VB x, VB y => Bool.eqb x y
  | VB x, VI y => Z.eqb (if x then 1 else 0) y
  | VI x, VB y => Z.eqb x (if y then 1 else 0)
  | VI x, VI y => Z.eqb x y
  | _, _ => false
  end.
Definition truthy (v : val) : bool :=
  match v with VB b => b | VI z => negb (Z.eqb z 0) | VS s => negb (String.eqb s "") | VT l => match l with [] => false | _ => true end end.
(** str(v): the decimal digits, the text itself, True or False *)
Definition digits (z : Z) : string := NilEmpty.string_of_uint (N.to_uint (Z.to_N z)).
Definition str_of (v : val) : string :=
  match v with
  | VB true => "True" | VB false => "False"
  | VI z => if Z.ltb z 0 then String "-" (digits (- z)) else digits z
  | VS s => s
  | VT _ => ""        (* not used *)
  end.

(** ** Expressions *)
Inductive atom := ADollar | AStateValue | ANum (z : Z) | AName (s : string).
Inductive op := OPlus | OMinus | OTimes | OPow | OEq | ONe | OLt | OLe | OGt | OGe | OIn | OAnd | OOr | ONot | OOpen | OClose | OComma.
Inductive tok := TAtom (a : atom) | TStr (s : string) | TOp (o : op).
Inductive expr :=
| EAtom (a : atom) | EStr (s : string) | ENil | ECons (a b : expr) | ENeg (a : expr) | EBin (o : op) (a b : expr)
| EAnd (a b : expr) | EOr (a b : expr) | ENot (a : expr).

(** the grammar of python expressions: or < and < not < comparison < sum < product < sign < power < atom *)
Inductive nt := NOr | NAnd | NNot | NCmp | NSum | NProd | NSign | NPow | NAtom
| NOrT (e : expr) | NAndT (e : expr) | NCmpT (chain : option expr) (e : expr) | NSumT (e : expr) | NProdT (e : expr) | NItems.
Inductive pres := POk (e : expr) (rest : list tok) | PErr | PFuel.
Definition pbind (r : pres) (k : expr -> list tok -> pres) : pres := match r with POk e rest => k e rest | r => r end.
Definition cmp_op (t : list tok) : option (op * bool * list tok) :=
  match t with
  | TOp OEq :: r => Some (OEq, false, r) | TOp ONe :: r => Some (ONe, false, r) | TOp OLt :: r => Some (OLt, false, r) | TOp OLe :: r => Some (OLe, false, r)
  | TOp OGt :: r => Some (OGt, false, r) | TOp OGe :: r => Some (OGe, false, r) | TOp OIn :: r => Some (OIn, false, r)
  | TOp ONot :: TOp OIn :: r => Some (OIn, true, r)
  | _ => None
  end.
Definition chained (c : option expr) (e : expr) : expr := match c with None => e | Some x => EAnd x e end.
Fixpoint parse (n : nat) (k : nt) (t : list tok) : pres :=
  match n with
  | O => PFuel
  | S n =>
    match k with
    | NOr => pbind (parse n NAnd t) (fun e r => parse n (NOrT e) r)
    | NOrT e => match t with TOp OOr :: r => pbind (parse n NAnd r) (fun e' r' => parse n (NOrT (EOr e e')) r') | _ => POk e t end
    | NAnd => pbind (parse n NNot t) (fun e r => parse n (NAndT e) r)
    | NAndT e => match t with TOp OAnd :: r => pbind (parse n NNot r) (fun e' r' => parse n (NAndT (EAnd e e')) r') | _ => POk e t end
    | NNot => match t with TOp ONot :: r => pbind (parse n NNot r) (fun e r' => POk (ENot e) r') | _ => parse n NCmp t end
    | NCmp => pbind (parse n NSum t) (fun e r => parse n (NCmpT None e) r)
    | NCmpT c e =>
      match cmp_op t with
      | Some (o, neg, r) => pbind (parse n NSum r) (fun e' r' =>
          let x := if (neg : bool) then ENot (EBin o e e') else EBin o e e' in parse n (NCmpT (Some (chained c x)) e') r')
      | None => POk (match c with None => e | Some x => x end) t
      end
    | NSum => pbind (parse n NProd t) (fun e r => parse n (NSumT e) r)
    | NSumT e =>
      match t with
      | TOp OPlus :: r => pbind (parse n NProd r) (fun e' r' => parse n (NSumT (EBin OPlus e e')) r')
      | TOp OMinus :: r => pbind (parse n NProd r) (fun e' r' => parse n (NSumT (EBin OMinus e e')) r')
      | _ => POk e t
      end
    | NProd => pbind (parse n NSign t) (fun e r => parse n (NProdT e) r)
    | NProdT e => match t with TOp OTimes :: r => pbind (parse n NSign r) (fun e' r' => parse n (NProdT (EBin OTimes e e')) r') | _ => POk e t end
    | NSign => match t with TOp OMinus :: r => pbind (parse n NSign r) (fun e r' => POk (ENeg e) r') | _ => parse n NPow t end
    | NPow => pbind (parse n NAtom t) (fun e r => match r with TOp OPow :: r' => pbind (parse n NSign r') (fun e' r'' => POk (EBin OPow e e') r'') | _ => POk e r end)
    | NAtom =>
      match t with
      | TAtom a :: r => POk (EAtom a) r
      | TStr s :: r => POk (EStr s) r
      | TOp OOpen :: TOp OClose :: r => POk ENil r
      | TOp OOpen :: r => pbind (parse n NOr r) (fun e r' =>
          match r' with
          | TOp OClose :: r'' => POk e r''
          | TOp OComma :: r'' => pbind (parse n NItems r'') (fun l r3 => POk (ECons e l) r3)
          | _ => PErr
          end)
      | _ => PErr
      end
    | NItems =>    (* the items of a tuple after the first comma, up to the closing bracket *)
      match t with
      | TOp OClose :: r => POk ENil r
      | _ => pbind (parse n NOr t) (fun e r =>
          match r with
          | TOp OClose :: r' => POk (ECons e ENil) r'
          | TOp OComma :: r' => pbind (parse n NItems r') (fun l r'' => POk (ECons e l) r'')
          | _ => PErr
          end)
      end
    end
  end.

(** values of names other than True and False: what is in the module and in the function when eval is called *)
Definition lookup (glob : string -> option val) (s : string) : out :=
  if String.eqb s "True" then Val (VB true) else if String.eqb s "False" then Val (VB false)
  else match glob s with Some v => Val v | None => Exc NameError end.
Definition arith (o : op) (x y : Z) : out :=
  match o with
  | OPlus => Val (VI (x + y)) | OMinus => Val (VI (x - y)) | OTimes => Val (VI (x * y))
  | OPow => if Z.ltb y 0 then Exc Unmodelled else Val (VI (x ^ y))
  | OLt => Val (VB (Z.ltb x y)) | OLe => Val (VB (Z.leb x y)) | OGt => Val (VB (Z.ltb y x)) | OGe => Val (VB (Z.leb y x))
  | _ => Exc Unmodelled
  end.
Definition binary (o : op) (a b : val) : out :=
  match o with
  | OEq => Val (VB (py_eq a b))
  | ONe => Val (VB (negb (py_eq a b)))
  | OIn => match b with
           | VT l => Val (VB (existsb (fun x => py_eq a x) l))
           | VS t => match a with VS s => Val (VB (match String.index 0 s t with Some _ => true | None => false end)) | _ => Exc TypeError end
           | _ => Exc TypeError
           end
  | _ =>
    match as_int a, as_int b with
    | Some x, Some y => arith o x y
    | _, _ =>
      match a, b with
      | VS s, VS t =>
        match o with
        | OPlus => Val (VS (s ++ t))
        | OLt => Val (VB (String.ltb s t)) | OLe => Val (VB (String.leb s t)) | OGt => Val (VB (String.ltb t s)) | OGe => Val (VB (String.leb t s))
        | _ => Exc TypeError
        end
      | VT _, _ | _, VT _ => Exc Unmodelled
      | _, _ => match o with OTimes => Exc Unmodelled | _ => Exc TypeError end
      end
    end
  end.
Definition obind (r : out) (k : val -> out) : out := match r with Val v => k v | r => r end.
(** [st]: state._value; [dl]: what $ stands for *)
Fixpoint eval (glob : string -> option val) (st dl : val) (e : expr) : out :=
  match e with
  | EAtom ADollar => Val dl
  | EAtom AStateValue => Val st
  | EAtom (ANum z) => Val (VI z)
  | EAtom (AName s) => lookup glob s
  | EStr s => Val (VS s)
  | ENil => Val (VT [])
  | ECons a b => obind (eval glob st dl a) (fun x => obind (eval glob st dl b) (fun y => match y with VT l => Val (VT (x :: l)) | _ => Exc TypeError end))
  | ENeg a => obind (eval glob st dl a) (fun x => match as_int x with Some z => Val (VI (- z)) | None => Exc TypeError end)
  | EBin o a b => obind (eval glob st dl a) (fun x => obind (eval glob st dl b) (fun y => binary o x y))
  | EAnd a b => obind (eval glob st dl a) (fun x => if truthy x then eval glob st dl b else Val x)
  | EOr a b => obind (eval glob st dl a) (fun x => if truthy x then Val x else eval glob st dl b)
  | ENot a => obind (eval glob st dl a) (fun x => Val (VB (negb (truthy x))))
  end.
(** python's eval of a text, all of which has to be an expression *)
Definition py_eval (n : nat) (glob : string -> option val) (st dl : val) (t : list tok) : out :=
  match parse n NOr t with POk e [] => eval glob st dl e | POk _ _ => Exc SyntaxError | PErr => Exc SyntaxError | PFuel => Exc Fuel end.

(** ** The test in _trywait *)
(** s.replace("$", r) *)
Fixpoint repl (r s : string) : string := match s with EmptyString => EmptyString | String c t => if Ascii.eqb c "$" then (r ++ repl r t)%string else String c (repl r t) end.
(** replacing $ in an expression, also in text literals *)
Definition replace (ts : list tok) (r : string) (t : list tok) : list tok :=
  flat_map (fun x => match x with TAtom ADollar => ts | TStr s => [TStr (repl r s)] | x => [x] end) t.
(** the tokens of str(v); texts: only those that are a name *)
Definition letter (c : ascii) : bool :=
  let k := N_of_ascii c in (N.leb 65 k && N.leb k 90) || (N.leb 97 k && N.leb k 122) || N.eqb k 95.
Fixpoint letters (s : string) : bool := match s with EmptyString => true | String c t => letter c && letters t end.
Definition keyword (s : string) : bool :=
  existsb (String.eqb s) ["and"; "or"; "not"; "in"; "is"; "if"; "else"; "for"; "lambda"; "None"; "True"; "False"; "await"; "async"; "yield"; "from"; "def"; "class"; "return";
    "while"; "with"; "as"; "assert"; "break"; "continue"; "del"; "elif"; "except"; "finally"; "global"; "import"; "nonlocal"; "pass"; "raise"; "try"]%string.
Definition name (s : string) : bool := negb (String.eqb s "") && letters s && negb (keyword s).
Definition tokens_of (v : val) : option (list tok) :=
  match v with
  | VB true => Some [TAtom (AName "True")] | VB false => Some [TAtom (AName "False")]
  | VI z => if Z.ltb z 0 then Some [TOp OMinus; TAtom (ANum (- z))] else Some [TAtom (ANum z)]
  | VS s => if name s then Some [TAtom (AName s)] else None
  | VT _ => None
  end.
(** 9268: eval(value.replace("$", str(state._value))), when any condition suffices *)
Definition test_any (n : nat) (glob : string -> option val) (v : val) (t : list tok) : out :=
  match tokens_of v with Some ts => py_eval n glob v v (replace ts (str_of v) t) | None => Exc Unmodelled end.
(** 9252: eval(value.replace("$", "state._value")), when all conditions are required *)
Definition test_all (n : nat) (glob : string -> option val) (v : val) (t : list tok) : out :=
  py_eval n glob v v (replace [TAtom AStateValue] "state._value" t).

(** what the user may give as value (9193-9207) *)
Inductive given :=
| GConst (v : val)                 (* a value that is not a text *)
| GText (s : string) (t : list tok)      (* a text, and what it is as an expression *)
| GFun (f : val -> bool)           (* a function made with def or lambda *)
| GCallable (f : val -> bool).     (* another callable: a method of an object, functools.partial, ... *)
Fixpoint has_dollar (s : string) : bool := match s with EmptyString => false | String c t => Ascii.eqb c "$" || has_dollar t end.
(** str() of a constant that is not a text: $ only from a text in a tuple, of which str gives the repr *)
Fixpoint dollar_in (v : val) : bool := match v with VS s => has_dollar s | VT l => existsb dollar_in l | _ => false end.
(** 9218-9223: the type of the condition, tested as in 9247-9257 / 9263-9273 *)
Definition test (all : bool) (n : nat) (glob : string -> option val) (g : given) (v : val) : out :=
  match g with
  | GFun f => Val (VB (f v))
  | GText s t => if has_dollar s then (if all then test_all n glob v t else test_any n glob v t) else Val (VB (py_eq (VS s) v))
  | GConst c => if dollar_in c then Exc AttributeError   (* .replace of a tuple *) else Val (VB (py_eq c v))
  | GCallable _ => Val (VB false)                        (* compared with the value of the state *)
  end.
(** 9243-9274; the conditions with the values of their states *)
Fixpoint honored_any (n : nat) (glob : string -> option val) (l : list (given * val)) : out :=
  match l with
  | [] => Val (VB false)
  | (g, v) :: r => obind (test false n glob g v) (fun x => if truthy x then Val (VB true) else honored_any n glob r)
  end.
Fixpoint honored_all (n : nat) (glob : string -> option val) (l : list (given * val)) : out :=
  match l with
  | [] => Val (VB true)
  | (g, v) :: r => obind (test true n glob g v) (fun x => if truthy x then honored_all n glob r else Val (VB false))
  end.
