(** Model of funpy/vectorspaces: namespace.py, parameter.py, base_state.py,
    cont_state.py, tp_state.py, tp_cont_state.py, deflation_state.py, mp_state.py.

    Namespace objects live in a heap because several states can share one
    ([__array_ufunc__] and numpy.real pass [ns=self.ns] on).  The functions and
    the Parameter objects of a state are values here: every constructor call of
    the modelled code gets fresh or deep-copied ones.  The function space is a
    parameter [F] (Fun in the code).  [None] is an exception. *)
From Coq Require Import Reals List Arith Bool String Lra.
From Verif Require Import Base ChebModel.
Import ListNotations.
Open Scope R_scope.

(** namespace.py 5-8: a Python dict in insertion order.  The values are
    Parameter objects or numbers; only float(value) is observable through
    [items] (base_state.py 185-187), so the model stores that number. *)
Definition nspace := list (string * R).
Fixpoint ns_get (d : nspace) (k : string) : option R :=
  match d with
  | [] => None
  | (q, v) :: t => if String.eqb q k then Some v else ns_get t k
  end.
(** dict.__setitem__: an existing key keeps its place. *)
Fixpoint ns_set (d : nspace) (k : string) (v : R) : nspace :=
  match d with
  | [] => [(k, v)]
  | (q, w) :: t => if String.eqb q k then (q, v) :: t else (q, w) :: ns_set t k v
  end.
(** dict.__delitem__: KeyError for a missing key. *)
Fixpoint ns_del (d : nspace) (k : string) : option nspace :=
  match d with
  | [] => None
  | (q, w) :: t => if String.eqb q k then Some t
                   else option_map (cons (q, w)) (ns_del t k)
  end.
Definition ns_keys (d : nspace) : list string := map fst d.
(** {n: v for n, v in l}: a dict comprehension (cont_state.py 77), also
    base_state.py 57-61 for the remaining keyword arguments. *)
Definition dict_of (l : list (string * R)) : nspace :=
  fold_left (fun d kv => ns_set d (fst kv) (snd kv)) l [].

(** parameter.py 13-24, Parameter: a named number. *)
Record param := mkPar { pname : string; pval : R }.

(** parameter.py 50-66, __array_ufunc__ of a call with operand [self] first:
    the name of [self], the numpy value. *)
Definition par_binary (op : R -> R -> R) (p q : param) : param := mkPar (pname p) (op (pval p) (pval q)).
Definition par_unary (op : R -> R) (p : param) : param := mkPar (pname p) (op (pval p)).

(** base_state.py 63-70, sync_ns: one [try] around the whole loop, so the
    first missing name ends it. *)
Fixpoint sync_loop (d : nspace) (l : list param) : nspace :=
  match l with
  | [] => d
  | r :: t => match ns_del d (pname r) with
              | None => d
              | Some d' => sync_loop d' t
              end
  end.

(** The four subclasses of BaseState. *)
Inductive kind := Deflation | Cont | TwoParCont | TwoPar.
Definition kind_eqb (a b : kind) : bool :=
  match a, b with
  | Deflation, Deflation | Cont, Cont | TwoParCont, TwoParCont | TwoPar, TwoPar => true
  | _, _ => false
  end.
(** signatures: deflation_state.py 13, cont_state.py 20, tp_cont_state.py 18-20,
    tp_state.py 18-22. *)
Definition n_reals (k : kind) : nat := match k with Deflation => 0 | Cont => 1 | TwoParCont => 2 | TwoPar => 2 end.
Definition n_funcs (k : kind) : nat := match k with TwoPar => 2 | _ => 1 end.
Definition sig_len (k : kind) : nat := n_reals k + n_funcs k.

Section States.
Variable F : Type.

Record state := mkSt {
  s_kind : kind; s_reals : list param; s_funcs : list F;
  s_weights : list R; s_ns : nat }.

Definition heap := list nspace.
Definition hget (h : heap) (a : nat) : nspace := nth a h [].
Fixpoint hset (h : heap) (a : nat) (d : nspace) : heap :=
  match h, a with
  | [], _ => []
  | _ :: t, O => d :: t
  | x :: t, S a' => x :: hset t a' d
  end.
Definition halloc (h : heap) (d : nspace) : heap * nat := (h ++ [d], List.length h).

(** base_state.py 63-70. *)
Definition sync_ns (h : heap) (x : state) : heap := hset h (s_ns x) (sync_loop (hget h (s_ns x)) (s_reals x)).

(** the check of tp_state.py 41-42 and tp_cont_state.py 30-31. *)
Definition names_ok (k : kind) (rs : list param) : bool :=
  match k, rs with
  | TwoParCont, r0 :: r1 :: _ | TwoPar, r0 :: r1 :: _ => negb (String.eqb (pname r0) (pname r1))
  | TwoParCont, _ | TwoPar, _ => false
  | _, _ => true
  end.

(** The constructors (base_state.py 43-61 and the subclasses) with the
    components given: [wopt] and [nsopt] are the keyword arguments weights and
    ns, [kw] the remaining ones, which are dropped if ns is given. *)
Definition ctor (h : heap) (k : kind) (rs : list param) (fs : list F)
    (wopt : option (list R)) (nsopt : option nat) (kw : list (string * R)) : option (heap * state) :=
  let w := match wopt with Some w => w | None => repeat 1 (sig_len k) end in
  let ha := match nsopt with Some a => (h, a) | None => halloc h (dict_of kw) end in
  let x := mkSt k rs fs w (snd ha) in
  if names_ok k rs then Some (sync_ns (fst ha) x, x) else None.

(** base_state.py 185-190, items. *)
Definition items (h : heap) (x : state) : list (string * R) :=
  hget h (s_ns x) ++ map (fun p => (pname p, pval p)) (s_reals x).
(** base_state.py 182-183, keys. *)
Definition keys (h : heap) (x : state) : list string := ns_keys (hget h (s_ns x)).
(** base_state.py 231-234, __setitem__. *)
Definition setitem (h : heap) (x : state) (k : string) (v : R) : heap :=
  hset h (s_ns x) (ns_set (hget h (s_ns x)) k v).

(** Elementwise application that raises if an operand is too short
    (base_state.py 300-307: IndexError) or if an element raises. *)
Fixpoint zip_opt {A} (op : A -> A -> option A) (l m : list A) : option (list A) :=
  match l, m with
  | [], _ => Some []
  | _ :: _, [] => None
  | a :: l', b :: m' =>
      match op a b, zip_opt op l' m' with
      | Some c, Some r => Some (c :: r)
      | _, _ => None
      end
  end.
Fixpoint map_opt {A B} (op : A -> option B) (l : list A) : option (list B) :=
  match l with
  | [] => Some []
  | a :: l' =>
      match op a, map_opt op l' with
      | Some c, Some r => Some (c :: r)
      | _, _ => None
      end
  end.

(** base_state.py 273-311, __array_ufunc__ without [out] for two states of the
    same type: [rop] on the values of the reals, [fop] on the functions; the
    weights are not passed on, the namespace object is. *)
Definition st_binary (rop : R -> R -> R) (fop : F -> F -> option F) (h : heap) (x y : state) : option (heap * state) :=
  if kind_eqb (s_kind x) (s_kind y) then
    match zip_opt (fun p q => Some (par_binary rop p q)) (s_reals x) (s_reals y),
          zip_opt fop (s_funcs x) (s_funcs y) with
    | Some rs, Some fs => ctor h (s_kind x) rs fs None (Some (s_ns x)) []
    | _, _ => None
    end
  else None.
(** The same with one state and a number (or one operand only). *)
Definition st_unary (rop : R -> R) (fop : F -> option F) (h : heap) (x : state) : option (heap * state) :=
  match map_opt fop (s_funcs x) with
  | Some fs => ctor h (s_kind x) (map (par_unary rop) (s_reals x)) fs None (Some (s_ns x)) []
  | None => None
  end.

(** base_state.py 284-295: the same with [out=x] (x += y).  The components are
    overwritten one by one, reals first; the second result tells whether the
    call returned (false: an exception came out of the loop). *)
Fixpoint upd_loop (fop : F -> F -> option F) (l m : list F) : list F * bool :=
  match l, m with
  | [], _ => ([], true)
  | a :: l', [] => (a :: l', false)
  | a :: l', b :: m' =>
      match fop a b with
      | None => (a :: l', false)
      | Some c => let r := upd_loop fop l' m' in (c :: fst r, snd r)
      end
  end.
Definition st_ibinary (rop : R -> R -> R) (fop : F -> F -> option F) (h : heap) (x y : state) : heap * state * bool :=
  if kind_eqb (s_kind x) (s_kind y) then
    match zip_opt (fun p q => Some (par_binary rop p q)) (s_reals x) (s_reals y) with
    | None => (h, x, false)
    | Some rs =>
        let r := upd_loop fop (s_funcs x) (s_funcs y) in
        let x' := mkSt (s_kind x) rs (fst r) (s_weights x) (s_ns x) in
        if snd r then (sync_ns h x', x', true) else (h, x', false)
    end
  else (h, x, false).

(** base_state.py 237-248, __deepcopy__: the namespace is copied, the weights
    are passed on. *)
Definition st_deepcopy (fcopy : F -> option F) (h : heap) (x : state) : option (heap * state) :=
  match map_opt fcopy (s_funcs x) with
  | Some fs => let ha := halloc h (hget h (s_ns x)) in
               ctor (fst ha) (s_kind x) (s_reals x) fs (Some (s_weights x)) (Some (snd ha)) []
  | None => None
  end.

(** base_state.py 322-334, zeros_like (ones_like, 337-348, is the same with
    [c = 1]): parameter.py 91-98 keeps the names; no namespace, no weights. *)
Definition st_const_like (c : R) (fconst : F -> option F) (h : heap) (x : state) : option (heap * state) :=
  match map_opt fconst (s_funcs x) with
  | Some fs => ctor h (s_kind x) (map (par_unary (fun _ => c)) (s_reals x)) fs None None []
  | None => None
  end.

(** base_state.py 351-364, dot, and 367-380, inner ([fip] is np.dot, resp. the
    sum of the diagonal of np.inner of the two functions). *)
Fixpoint wsum {A} (f : A -> A -> option R) (w : list R) (l m : list A) {struct l} : option R :=
  match l, m, w with
  | [], _, _ => Some 0
  | a :: l', b :: m', c :: w' =>
      match f a b, wsum f w' l' m' with
      | Some v, Some s => Some (c * v + s)
      | _, _ => None
      end
  | _, _, _ => None
  end.
Definition st_dot (fip : F -> F -> option R) (x y : state) : option R :=
  match wsum fip (s_weights x) (s_funcs x) (s_funcs y),
        wsum (fun p q => Some (pval p * pval q)) (skipn (List.length (s_funcs x)) (s_weights x)) (s_reals x) (s_reals y) with
  | Some a, Some b => Some (a + b)
  | _, _ => None
  end.

(** base_state.py 383-396, innerw: the inner call refers to this function
    itself (the imported one is shadowed); a Fun has no attribute fshape. *)
Definition st_innerw (x y : state) : option R :=
  match s_funcs x with
  | [] => wsum (fun p q => Some (pval p * pval q)) (s_weights x) (s_reals x) (s_reals y)
  | _ :: _ => None
  end.

(** base_state.py 135-143, norm with p = 2 ([nf] is norm_function). *)
Definition st_norm (nf : F -> option R) (x : state) : option R :=
  match wsum (fun f _ => nf f) (s_weights x) (s_funcs x) (s_funcs x),
        wsum (fun p q => Some (pval p * pval q)) (skipn (List.length (s_funcs x)) (s_weights x)) (s_reals x) (s_reals x) with
  | Some a, Some b => Some (sqrt (a + b))
  | _, _ => None
  end.
(** base_state.py 145-153, normalize: in place, function by function and real
    by real ([fdiv]: Fun division by a number). *)
Definition st_normalize (nf : F -> option R) (fdiv : F -> R -> option F) (x : state) : option state :=
  match st_norm nf x with
  | None => None
  | Some v =>
      if Rltb (/ 10 ^ 14) v then
        match map_opt (fun f => fdiv f v) (s_funcs x) with
        | Some fs => Some (mkSt (s_kind x) (map (par_unary (fun r => r / v)) (s_reals x)) fs (s_weights x) (s_ns x))
        | None => None
        end
      else Some x
  end.

(** base_state.py 399-410, real (imag 413-424 and conj 427-438 are the same
    loops): the loop over the reals runs to the number of functions and the
    other way round; the arrays start with None entries. *)
Fixpoint fill {A} (op : A -> option A) (cnt : nat) (l : list A) : option (list (option A)) :=
  match cnt with
  | O => Some (map (fun _ => None) l)
  | S c => match l with
           | [] => None
           | a :: t => match op a, fill op c t with
                       | Some b, Some r => Some (Some b :: r)
                       | _, _ => None
                       end
           end
  end.
Fixpoint seq_opt {A} (l : list (option A)) : option (list A) :=
  match l with
  | [] => Some []
  | Some a :: t => option_map (cons a) (seq_opt t)
  | None :: _ => None
  end.
Definition st_part (rop : R -> R) (fop : F -> option F) (h : heap) (x : state) : option (heap * state) :=
  let n := List.length (s_funcs x) in
  let m := List.length (s_reals x) in
  match fill (fun p => Some (par_unary rop p)) n (s_reals x), fill fop m (s_funcs x) with
  | Some rs, Some fs =>
      match seq_opt rs, seq_opt fs with
      | Some rs', Some fs' => ctor h (s_kind x) rs' fs' None (Some (s_ns x)) []
      | _, _ => None   (* a None entry: the sync_ns of the constructor raises AttributeError for a None real *)
      end
  | _, _ => None
  end.

(** from_state of cont_state.py 75-78, tp_cont_state.py 52-56, tp_state.py
    64-68: the items of [other] become keyword arguments.  A key that is the
    name of an explicit argument of the constructor is a TypeError; the names
    weights, funcs, reals, ns, signature are taken as other arguments (the
    model treats them as an error). *)
Definition clash (k : kind) (q : string) : bool :=
  existsb (String.eqb q)
    (match k with
     | Deflation => ["u"] | Cont => ["a"; "u"] | TwoParCont => ["p1"; "p2"; "u"] | TwoPar => ["p1"; "p2"; "u"; "phi"]
     end%string ++ ["self"; "signature"; "weights"; "funcs"; "reals"; "ns"]%string).
Definition from_state (fcopy : F -> option F) (fzero : F -> option F) (h : heap) (k : kind) (other : state)
    (rs : list param) : option (heap * state) :=
  let pars := dict_of (items h other) in
  if existsb (clash k) (ns_keys pars) then None
  else match s_funcs other with
       | [] => None
       | u :: _ =>
           match fcopy u, (match k with TwoPar => option_map (fun z => [z]) (fzero u) | _ => Some [] end) with
           | Some u', Some l => ctor h k rs (u' :: l) None None pars
           | _, _ => None
           end
       end.

(** mp_state.py 12-74: a state with a tangent; the arithmetic normalises the
    tangent of the result. *)
Record mp_state := mkMp { mp_u : state; mp_v : state }.
Definition mp_binary (rop : R -> R -> R) (fop : F -> F -> option F) (nf : F -> option R) (fdiv : F -> R -> option F)
    (h : heap) (x y : mp_state) : option (heap * mp_state) :=
  match st_binary rop fop h (mp_u x) (mp_u y) with
  | None => None
  | Some (h1, nu) =>
      match st_binary rop fop h1 (mp_v x) (mp_v y) with
      | None => None
      | Some (h2, nv) => match st_normalize nf fdiv nv with
                         | None => None
                         | Some nv' => Some (h2, mkMp nu nv')
                         end
      end
  end.
End States.
Arguments mkSt {F}. Arguments s_kind {F}. Arguments s_reals {F}. Arguments s_funcs {F}.
Arguments s_weights {F}. Arguments s_ns {F}.
Arguments sync_ns {F}. Arguments ctor {F}. Arguments items {F}. Arguments keys {F}. Arguments setitem {F}.
Arguments st_binary {F}. Arguments st_unary {F}. Arguments upd_loop {F}. Arguments st_ibinary {F}.
Arguments st_deepcopy {F}. Arguments st_const_like {F}. Arguments st_dot {F}. Arguments st_innerw {F}.
Arguments st_norm {F}. Arguments st_normalize {F}. Arguments st_part {F}. Arguments from_state {F}.
Arguments mkMp {F}. Arguments mp_u {F}. Arguments mp_v {F}. Arguments mp_binary {F}.

(** Histories: the live states and the heap; a command refers to states by
    their index.  A command that raises leaves the world as it is, except for
    the in-place operation. *)
Section Histories.
Variable F : Type.
Variables (rop : R -> R -> R) (fop : F -> F -> option F) (rsc : R -> R) (fsc : F -> option F)
          (fcopy fzero : F -> option F).
Inductive cmd :=
| New (k : kind) (rs : list param) (fs : list F) (w : option (list R)) (kw : list (string * R))
| Share (k : kind) (rs : list param) (fs : list F) (i : nat)      (* ns = the namespace of state i *)
| Binary (i j : nat) | Unary (i : nat) | IBinary (i j : nat)
| Copy (i : nat) | ZerosLike (i : nat) | FromState (k : kind) (i : nat) (rs : list param)
| SetItem (i : nat) (q : string) (v : R).

Record world := mkW { w_heap : heap; w_states : list (state F) }.
Definition push (w : world) (o : option (heap * state F)) : world :=
  match o with
  | None => w
  | Some (h, x) => mkW h (w_states w ++ [x])
  end.
Fixpoint replace_nth {A} (l : list A) (i : nat) (x : A) : list A :=
  match l, i with
  | [], _ => []
  | _ :: t, O => x :: t
  | a :: t, S j => a :: replace_nth t j x
  end.
Definition step (w : world) (c : cmd) : world :=
  let h := w_heap w in
  let st i := nth_error (w_states w) i in
  match c with
  | New k rs fs wo kw => push w (ctor h k rs fs wo None kw)
  | Share k rs fs i =>
      match st i with Some x => push w (ctor h k rs fs None (Some (s_ns x)) []) | None => w end
  | Binary i j =>
      match st i, st j with Some x, Some y => push w (st_binary rop fop h x y) | _, _ => w end
  | Unary i => match st i with Some x => push w (st_unary rsc fsc h x) | None => w end
  | IBinary i j =>
      match st i, st j with
      | Some x, Some y => let r := st_ibinary rop fop h x y in
                          mkW (fst (fst r)) (replace_nth (w_states w) i (snd (fst r)))
      | _, _ => w
      end
  | Copy i => match st i with Some x => push w (st_deepcopy fcopy h x) | None => w end
  | ZerosLike i => match st i with Some x => push w (st_const_like 0 fzero h x) | None => w end
  | FromState k i rs => match st i with Some x => push w (from_state fcopy fzero h k x rs) | None => w end
  | SetItem i q v => match st i with Some x => mkW (setitem h x q v) (w_states w) | None => w end
  end.
Definition run (cs : list cmd) : world := fold_left step cs (mkW [] []).
End Histories.
Arguments New {F}. Arguments Share {F}. Arguments Binary {F}. Arguments Unary {F}. Arguments IBinary {F}.
Arguments Copy {F}. Arguments ZerosLike {F}. Arguments FromState {F}. Arguments SetItem {F}.
Arguments mkW {F}. Arguments w_heap {F}. Arguments w_states {F}. Arguments push {F}. Arguments step {F}. Arguments run {F}.

(** Iteration over a state (base_state.py 219-228; Fun, fun.py 157-165, is the
    same): iter(x) resets a counter stored in x itself. *)
Definition it_iter (pos : nat) : nat := 0%nat.
Definition it_next (cols pos : nat) : nat * option nat :=
  if Nat.leb cols pos then (pos, None) else (S pos, Some pos).
(** [for i in x: for j in x: visit (i, j)], with fuel for the outer loop. *)
Fixpoint inner_loop (cols fuel pos : nat) : nat * list nat :=
  match fuel with
  | O => (pos, [])
  | S f => match it_next cols pos with
           | (p, None) => (p, [])
           | (p, Some j) => let r := inner_loop cols f p in (fst r, j :: snd r)
           end
  end.
Fixpoint outer_loop (cols fuel pos : nat) : list (nat * nat) :=
  match fuel with
  | O => []
  | S f => match it_next cols pos with
           | (_, None) => []
           | (p, Some i) => let r := inner_loop cols (S cols) (it_iter p) in
                            map (fun j => (i, j)) (snd r) ++ outer_loop cols f (fst r)
           end
  end.
(** [for i in x: visit i]. *)
Definition for_loop (cols : nat) : list nat := snd (inner_loop cols (S cols) (it_iter 0)).
Definition nested_loops (cols fuel : nat) : list (nat * nat) := outer_loop cols fuel (it_iter 0).

(** The code with Fun components. *)
From Verif Require Import ChebModel2 FunModel.

(** chebtech.py 456-460 and fun.py 264-266, real (of a function with real
    coefficients); chebtech.py 84-95 and fun.py 190-199, deepcopy. *)
Definition fun_real (f : Fun) : option Fun :=
  wrap f (cheb_init (coeffs (onefun f)) (eps (onefun f)) (hscale (onefun f)) (maxLength (onefun f)) (ishappy (onefun f)) false).
Definition fun_deepcopy (f : Fun) : option Fun := wrap f (deepcopy (onefun f)).
(** fun.py 252-255, zeros_like (value space zeros of the same shape: the
    coefficients are zero as well). *)
Definition fun_zeros_like (f : Fun) : option Fun :=
  wrap f (cheb_init (map (fun c => map (fun _ => 0) c) (coeffs (onefun f))) eps_default
            (fun_hscale (dom0 f) (dom1 f)) maxLength_default false false).

(** cont_state.py 86-87, tp_cont_state.py 62-63 and tp_state.py 74-75, flatten;
    only funcs[0] is used. *)
Definition st_flatten (x : state Fun) : option (list R) :=
  match s_funcs x with
  | [] => None
  | u :: _ => Some (fun_flatten u ++ map pval (s_reals x))
  end.
(** base_state.py 205-208, __array__ (cont_state.py 79-81 is the same for one
    real up to squeeze). *)
Definition st_array (x : state Fun) : list R :=
  List.concat (map fun_flatten (s_funcs x)) ++ map pval (s_reals x).
(** base_state.py 95-97, size. *)
Definition st_size (x : state Fun) : option nat :=
  match s_funcs x with
  | [] => None
  | u :: _ => Some (List.length (List.concat (coeffs (onefun u))) + 1)%nat
  end.
(** cont_state.py 63-67, tp_cont_state.py 36-43, tp_state.py 48-55,
    deflation_state.py 31-34, from_coeffs: [names] are the parameter names,
    the domain is a keyword argument of Fun.from_coeffs. *)
Definition st_from_coeffs (h : heap) (k : kind) (v : list R) (names : list string) (nf : nat) (a b : R)
    : option (heap * state Fun) :=
  let m := List.length names in
  if negb (Nat.eqb m (n_reals k)) || Nat.ltb (List.length v) m then None else
  let cut := (List.length v - m)%nat in
  if Nat.eqb nf 0 then None else
  if negb (Nat.eqb (cut mod nf) 0) then None else
  match fun_from_coeffs (firstn cut v) nf a b with
  | None => None
  | Some f =>
      match fun_real f with
      | None => None
      | Some g =>
          match fun_deepcopy g, (match k with TwoPar => option_map (fun z => [z]) (fun_zeros_like g) | _ => Some [] end) with
          | Some u, Some l => ctor h k (map (fun nv => mkPar (fst nv) (snd nv)) (combine names (skipn cut v))) (u :: l) None None []
          | _, _ => None
          end
      end
  end.

(** HDF5: a file group is modelled by what can be read back from it.
    chebtech.py 424-430 writes the coefficients, eps, hscale, maxLength and
    ishappy, fun.py 202-205 the domain and the type; chebtech.py 69-77 and
    fun.py 207-212 read them. *)
Record fun_file := mkFF { ff_poly : arr; ff_eps : R; ff_hscale : R; ff_maxLength : Z; ff_ishappy : bool; ff_dom : R * R }.
Definition fun_write (f : Fun) : fun_file :=
  mkFF (coeffs (onefun f)) (eps (onefun f)) (hscale (onefun f)) (maxLength (onefun f)) (ishappy (onefun f)) (dom0 f, dom1 f).
Definition fun_read (g : fun_file) : option Fun :=
  option_map (fun o => mkFun o (fst (ff_dom g)) (snd (ff_dom g)))
    (cheb_init (ff_poly g) (ff_eps g) (ff_hscale g) (ff_maxLength g) (ff_ishappy g) false).
(** base_state.py 193-202, writeHDF5 (parameter.py 77-79, namespace.py 14-16),
    and cont_state.py 43-61, from_hdf5 of ContinuationState. *)
Record st_file := mkSF { sf_weights : list R; sf_funcs : list fun_file; sf_reals : list param; sf_ns : nspace }.
Definition st_write (h : heap) (x : state Fun) : st_file :=
  mkSF (s_weights x) (map fun_write (s_funcs x)) (s_reals x) (hget h (s_ns x)).
Definition cont_read (h : heap) (g : st_file) : option (heap * state Fun) :=
  match rev (sf_funcs g), rev (sf_reals g) with   (* every group overwrites entry 0 *)
  | ff :: _, r :: _ =>
      match fun_read ff with
      | None => None
      | Some f => let ha := halloc h (dict_of (sf_ns g)) in
                  ctor (fst ha) Cont [r] [f] (Some (sf_weights g)) (Some (snd ha)) []
      end
  | _, _ => None
  end.
