(** Model of funpy/vectorspaces/parameter.py: named numbers, as a heap of mutable objects, and of programs that compute with them. *)
From Coq Require Import String List Arith Bool.
Import ListNotations.

Section Par.
Variable V : Type.            (** the numbers (floats), with whatever arithmetic they have *)
Variable mul : V -> V -> V.   (** their product *)

(** parameter.py 12-20: the attributes name and value. *)
Record par := mkPar { p_name : string; p_val : V }.
(** a python object a variable can hold: a number or a reference to a Parameter (its position in the heap). *)
Inductive pyval := VNum (v : V) | VRef (i : nat).
Definition heap := list par.
Definition env := nat -> pyval.

(** parameter.py 46-47, __array__ (np.asarray of an operand); 40-44, __float__. *)
Definition deref (h : heap) (x : pyval) : option V :=
  match x with VNum v => Some v | VRef i => option_map p_val (nth_error h i) end.
Definition name_at (h : heap) (x : pyval) : option string :=
  match x with VNum _ => None | VRef i => option_map p_name (nth_error h i) end.
(** 12-24, the constructor called with name=value: a new object. *)
Definition alloc (h : heap) (n : string) (v : V) : heap * pyval := (h ++ [mkPar n v], VRef (length h)).
(** 49-64, __array_ufunc__ without out: [self] is the leftmost operand that is a Parameter; the values of the operands are
    combined and the result is a new Parameter with the name of [self].  Two plain numbers never come here. *)
Definition ufunc2 (f : V -> V -> V) (h : heap) (x y : pyval) : option (heap * pyval) :=
  match deref h x, deref h y with
  | Some a, Some b =>
    match name_at h x with
    | Some n => Some (alloc h n (f a b))
    | None => match name_at h y with Some n => Some (alloc h n (f a b)) | None => Some (h, VNum (f a b)) end
    end
  | _, _ => None
  end.
Definition ufunc1 (f : V -> V) (h : heap) (x : pyval) : option (heap * pyval) :=
  match deref h x with
  | Some a => match name_at h x with Some n => Some (alloc h n (f a)) | None => Some (h, VNum (f a)) end
  | None => None
  end.
(** 99-106, np.dot and np.inner: p1.value * p2.value, so a plain number next to a Parameter raises. *)
Definition pdot (h : heap) (x y : pyval) : option (heap * pyval) :=
  match x, y with
  | VRef _, VNum _ | VNum _, VRef _ => None
  | _, _ => match deref h x, deref h y with Some a, Some b => Some (h, VNum (mul a b)) | _, _ => None end
  end.
(** 26-32, __deepcopy__. *)
Definition pcopy (h : heap) (x : pyval) : option (heap * pyval) :=
  match x with
  | VNum v => Some (h, x)
  | VRef i => match nth_error h i with Some p => Some (alloc h (p_name p) (p_val p)) | None => None end
  end.

(** expressions: variables, numbers, binary and unary ufuncs (arithmetic, powers and comparisons; minus, np.exp, np.real, np.zeros_like ...),
    float(p), np.dot, copy.deepcopy. *)
Inductive expr :=
| EVar (x : nat) | ENum (v : V) | EBin (f : V -> V -> V) (a b : expr) | EUn (f : V -> V) (a : expr)
| EFloat (a : expr) | EDot (a b : expr) | ECopy (a : expr).
Fixpoint eval (h : heap) (r : env) (e : expr) : option (heap * pyval) :=
  match e with
  | EVar x => Some (h, r x)
  | ENum v => Some (h, VNum v)
  | EBin f a b =>
    match eval h r a with
    | Some (h1, x) => match eval h1 r b with Some (h2, y) => ufunc2 f h2 x y | None => None end
    | None => None
    end
  | EUn f a => match eval h r a with Some (h1, x) => ufunc1 f h1 x | None => None end
  | EFloat a => match eval h r a with Some (h1, x) => option_map (fun v => (h1, VNum v)) (deref h1 x) | None => None end
  | EDot a b =>
    match eval h r a with
    | Some (h1, x) => match eval h1 r b with Some (h2, y) => pdot h2 x y | None => None end
    | None => None
    end
  | ECopy a => match eval h r a with Some (h1, x) => pcopy h1 x | None => None end
  end.

(** statements: x = e, and x op= e.  NDArrayOperatorsMixin turns the latter into ufunc(x, e, out=(x,)) when x is a Parameter:
    57-60 store the new value in that object.  For a number x it is x = x op e. *)
Inductive stmt := SAssign (x : nat) (e : expr) | SInpl (x : nat) (f : V -> V -> V) (e : expr).
Definition setv (r : env) (x : nat) (v : pyval) : env := fun y => if Nat.eqb y x then v else r y.
Definition set_nth (h : heap) (i : nat) (v : V) : heap :=
  map (fun q => if Nat.eqb (fst q) i then mkPar (p_name (snd q)) v else snd q) (combine (seq 0 (length h)) h).
Definition exec (s : heap * env) (c : stmt) : option (heap * env) :=
  let (h, r) := s in
  match c with
  | SAssign x e => match eval h r e with Some (h1, v) => Some (h1, setv r x v) | None => None end
  | SInpl x f e =>
    match eval h r e with
    | Some (h1, y) =>
      match r x with
      | VRef i => match deref h1 (VRef i), deref h1 y with Some a, Some b => Some (set_nth h1 i (f a b), r) | _, _ => None end
      | VNum _ => match ufunc2 f h1 (r x) y with Some (h2, v) => Some (h2, setv r x v) | None => None end
      end
    | None => None
    end
  end.
Fixpoint run (s : heap * env) (p : list stmt) : option (heap * env) :=
  match p with [] => Some s | c :: q => match exec s c with Some s' => run s' q | None => None end end.
(** `if x:` : Parameter has neither __bool__ nor __len__, so every Parameter counts as true. *)
Definition truth (nonzero : V -> bool) (x : pyval) : bool := match x with VNum v => nonzero v | VRef _ => true end.
End Par.
Arguments mkPar {V}. Arguments VNum {V}. Arguments VRef {V}. Arguments p_name {V}. Arguments p_val {V}.
Arguments EVar {V}. Arguments ENum {V}. Arguments EBin {V}. Arguments EUn {V}. Arguments EFloat {V}. Arguments EDot {V}. Arguments ECopy {V}.
Arguments SAssign {V}. Arguments SInpl {V}. Arguments deref {V}. Arguments name_at {V}. Arguments eval {V}. Arguments exec {V}. Arguments run {V}.
Arguments truth {V}. Arguments setv {V}. Arguments set_nth {V}. Arguments ufunc1 {V}. Arguments ufunc2 {V}. Arguments pdot {V}. Arguments pcopy {V}. Arguments alloc {V}.
