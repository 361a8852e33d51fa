(** Memory of a program that uses ordinary (Chebyshev) functions: function objects (Fun) refer to a chebtech object, which
    refers to a numpy array of coefficients; several functions may share a chebtech object or columns of an array.
    funpy/fun.py 140-143, 145-151, 166-187, 276-278; funpy/cheb/chebtech.py 113-124, 217-234, 455-460;
    funpy/cheb/ufuncs.pyx 20-29, 36-45, 48-132, 174-267, 269-324.
    The in-place operators f += g ... are numpy's ufuncs called with out=(f,) (NDArrayOperatorsMixin). *)
From Coq Require Import Reals ZArith List Arith Bool.
From Verif Require Import Base ChebModel ChebModel2 FunModel DivModel.
Import ListNotations.
Open Scope R_scope.

(** A column of an array is a cell; an array with m columns is a list of m cells, a view of a column is that cell.
    A chebtech object (chebtech.py 27-37): the columns of its coefficient array and its scalar attributes. *)
Record obj := mkObj { ocols : list nat; oeps : R; ohscale : R; omax : Z; ohappy : bool }.
(** cells and objects below the two counters are in use *)
Record mem := mkMem { cells : nat -> list R; ncells : nat; objs : nat -> obj; nobjs : nat }.
(** a Fun (fun.py 26-62): the attribute onefun is a reference; the domain *)
Record fref := mkRef { rfun : nat; ra : R; rb : R }.

(** what can be read off a chebtech object, off a function *)
Definition read_obj (m : mem) (o : obj) : chebtech :=
  mkCheb (map (cells m) (ocols o)) (oeps o) (ohscale o) (omax o) (ohappy o).
Definition read (m : mem) (r : fref) : Fun := mkFun (read_obj m (objs m (rfun r))) (ra r) (rb r).

(** a new array *)
Definition alloc (m : mem) (A : arr) : mem * list nat :=
  (mkMem (fun i => if Nat.ltb i (ncells m) then cells m i else nth (i - ncells m) A []) (ncells m + length A)
         (objs m) (nobjs m),
   seq (ncells m) (length A)).
(** the object p is replaced (attributes rebound) *)
Definition set_obj (m : mem) (p : nat) (o : obj) : mem :=
  mkMem (cells m) (ncells m) (fun q => if Nat.eqb q p then o else objs m q) (nobjs m).
(** a new object *)
Definition new_obj (m : mem) (o : obj) : mem * nat :=
  (mkMem (cells m) (ncells m) (fun q => if Nat.eqb q (nobjs m) then o else objs m q) (S (nobjs m)), nobjs m).
(** a new object with a new array *)
Definition new_cheb (m : mem) (f : chebtech) : mem * nat :=
  let '(m1, l) := alloc m (coeffs f) in
  new_obj m1 (mkObj l (eps f) (hscale f) (maxLength f) (ishappy f)).
(** a new object with the columns l of existing arrays (chebtech.py 24-67 with coeffs=, simplify=False) *)
Definition new_view (m : mem) (l : list nat) (e h : R) (ml : Z) (hp : bool) : option (mem * nat) :=
  match cheb_init (map (cells m) l) e h ml hp false with
  | None => None
  | Some g => Some (new_obj m (mkObj l (eps g) (hscale g) (maxLength g) (ishappy g)))
  end.
(** writing an array in place, column by column *)
Fixpoint write (m : mem) (l : list nat) (A : arr) : mem :=
  match l, A with
  | i :: l', c :: A' =>
      write (mkMem (fun k => if Nat.eqb k i then c else cells m k) (ncells m) (objs m) (nobjs m)) l' A'
  | _, _ => m
  end.
(** p.coeffs = A with a new array A *)
Definition rebind (m : mem) (p : nat) (A : arr) : mem :=
  let '(m1, l) := alloc m A in
  let o := objs m1 p in set_obj m1 p (mkObj l (oeps o) (ohscale o) (omax o) (ohappy o)).
(** p.eps = e, p.ishappy = b *)
Definition set_flags (m : mem) (p : nat) (e : R) (b : bool) : mem :=
  let o := objs m p in set_obj m p (mkObj (ocols o) e (ohscale o) (omax o) b).

(** The outcome of a statement on the object p: the memory afterwards, and whether it raised *)
Definition outcome := (mem * bool)%type.
Definition fine (m : mem) : outcome := (m, false).
Definition raised (m : mem) : outcome := (m, true).
Definition coef_of (m : mem) (p : nat) : arr := coeffs (read_obj m (objs m p)).

(** ufuncs.pyx 54-68 with out: a number, or a row of numbers, is added to the first coefficients in place *)
Definition h_add_row (m : mem) (p : nat) (row : list R) : outcome :=
  let A := coef_of m p in
  let row' := match row with [a] => map (fun _ => a) A | _ => row end in
  if Nat.eqb (length row') (length A) then
    fine (write m (ocols (objs m p)) (map (fun '(c, a) => upd c 0 (nth 0 c 0 + a)) (combine A row')))
  else raised m.
(** ufuncs.pyx 83-124 with out = x1: both functions are prolonged in place, then the coefficients of x1 are
    incremented in place (numpy reads the operands before it overwrites them when they overlap), eps and ishappy are set.
    Lines 107-113 only rebind a local name. *)
Definition h_add_fun (m : mem) (p q : nat) : outcome :=
  let f := read_obj m (objs m p) in let g := read_obj m (objs m q) in
  let nf := nrows (coeffs f) in let no := nrows (coeffs g) in
  let m1 := if Nat.ltb no nf then rebind m q (prolong (coeffs g) (Z.of_nat nf))
            else if Nat.ltb nf no then rebind m p (prolong (coeffs f) (Z.of_nat no)) else m in
  match add_cols (coef_of m1 p) (coef_of m1 q) with
  | None => raised m1
  | Some C => fine (set_flags (write m1 (ocols (objs m1 p)) C) p (Rmax (eps f) (eps g)) (ishappy f && ishappy g))
  end.
(** ufuncs.pyx 131-132: the negative is a new object *)
Definition h_sub_fun (m : mem) (p q : nat) : outcome :=
  match negative (read_obj m (objs m q)) with
  | None => raised m
  | Some g => let '(m1, q1) := new_cheb m g in h_add_fun m1 p q1
  end.
(** ufuncs.pyx 180-193 with out: x1 * number in a new array; x1 may be another object (see h_mul_fun) *)
Definition h_mul_number (m : mem) (p : nat) (x1 : chebtech) (a : R) : mem :=
  set_flags (rebind m p (map (map (fun c => c * a)) (coeffs x1))) p (eps x1) (ishappy x1).
(** ufuncs.pyx 195-215 with out: entrywise product in coefficient space *)
Definition h_mul_array (m : mem) (p : nat) (x1 : chebtech) (X : arr) : outcome :=
  if Nat.eqb (nrows X * length X) 1 then fine (h_mul_number m p x1 (nth 0 (hd [] X) 0))
  else if same_shape (coeffs x1) X then
    fine (set_flags (rebind m p (map (fun '(c, d) => map (fun '(a, b) => a * b) (combine c d)) (combine (coeffs x1) X)))
                    p (eps x1) (ishappy x1))
  else raised m.
(** a vector of k numbers is given the shape (k, 1) (ufuncs.pyx 199-200) *)
Definition h_mul_row (m : mem) (p : nat) (row : list R) : outcome := h_mul_array m p (read_obj m (objs m p)) [row].
(** ufuncs.pyx 233-264 with out; the coefficients are those computed without out (lines 245-256) *)
Definition h_mul_fun (m : mem) (p q : nat) : outcome :=
  let f := read_obj m (objs m p) in let g := read_obj m (objs m q) in
  if Nat.eqb (nrows (coeffs f)) 1 then h_mul_array m p g (coeffs f)
  else if Nat.eqb (nrows (coeffs g)) 1 then h_mul_array m p f (coeffs g)
  else match multiply f g with
       | None => raised m
       | Some h => fine (set_flags (rebind m p (coeffs h)) p (Rmax (eps f) (eps g)) (ishappy f && ishappy g))
       end.
(** ufuncs.pyx 300-308 and 319-321 with out: in place; a row must have one entry, or one for each column *)
Definition h_div_row (m : mem) (p : nat) (row : list R) : outcome :=
  let A := coef_of m p in
  let row' := match row with [a] => map (fun _ => a) A | _ => row end in
  if Nat.eqb (length row') (length A) then
    fine (write m (ocols (objs m p)) (map (fun '(c, a) => map (fun v => v / a) c) (combine A row')))
  else raised m.
(** ufuncs.pyx 309-316 with out: the coefficients of the quotient; eps and ishappy are not set *)
Definition h_div_fun (m : mem) (p q : nat) : outcome :=
  match cheb_divide (read_obj m (objs m p)) (read_obj m (objs m q)) with
  | None => raised m
  | Some h => fine (rebind m p (coeffs h))
  end.

(** the right operand: one of the functions of the program, or numbers (a number is a row with one entry) *)
Inductive operand := OFun (j : nat) | ORow (row : list R).
Definition ONum (a : R) : operand := ORow [a].
Inductive inop := IAdd | ISub | IMul | IDiv.

(** fun.py 166-180: the domains are compared (for both operands and out), then the operation acts on the onefuns *)
Definition in_place (m : mem) (vs : list fref) (op : inop) (i : nat) (g : operand) : outcome :=
  let f := nth i vs (mkRef 0 0 0) in
  match g with
  | ORow row =>
      match op with
      | IAdd => h_add_row m (rfun f) row
      | ISub => h_add_row m (rfun f) (map Ropp row)
      | IMul => h_mul_row m (rfun f) row
      | IDiv => h_div_row m (rfun f) row
      end
  | OFun j =>
      let g := nth j vs (mkRef 0 0 0) in
      if dom_check (read m f) (read m g) then
        match op with
        | IAdd => h_add_fun m (rfun f) (rfun g)
        | ISub => h_sub_fun m (rfun f) (rfun g)
        | IMul => h_mul_fun m (rfun f) (rfun g)
        | IDiv => h_div_fun m (rfun f) (rfun g)
        end
      else raised m
  end.

(** Statements of a program; the functions made so far are numbered, every expression makes the next one.
    - Expr e: an expression that computes its result from the functions so far and stores it in new arrays: a
      constructor, f + g, f * 2, -f, np.diff(f), np.copy(f), copy.deepcopy(f), np.hstack([f, g]), ...
    - Same i: +f (ufuncs.pyx 28-29), f**1 (ufuncs.pyx 36-45), copy.copy(f) (fun.py 140-143): a new Fun with the same
      onefun (fun.py 182-183)
    - Col i k: f[k], or the k-th round of for g in f (fun.py 145-164, chebtech.py 217-234): numpy's basic indexing, a view
    - RealPart i: np.real(f) (fun.py 276-278, chebtech.py 455-460): np.real of an array of floats is that array
    - Do op i g: f op= g *)
Inductive stmt :=
  | Expr (e : list Fun -> option Fun)
  | Same (i : nat)
  | Col (i : nat) (k : nat)
  | RealPart (i : nat)
  | Do (op : inop) (i : nat) (g : operand).

(** state of a program: its memory and the functions made so far; a statement that raises ends with true *)
Definition state := (mem * list fref)%type.
Definition exec (s : state) (c : stmt) : state * bool :=
  let '(m, vs) := s in
  match c with
  | Expr e => match e (map (read m) vs) with
              | None => (s, true)
              | Some F => let '(m1, p) := new_cheb m (onefun F) in ((m1, vs ++ [mkRef p (dom0 F) (dom1 F)]), false)
              end
  | Same i => match nth_error vs i with
              | None => (s, true)
              | Some f => ((m, vs ++ [f]), false)
              end
  | Col i k =>
      match nth_error vs i with
      | None => (s, true)
      | Some f =>
          let o := objs m (rfun f) in
          match nth_error (ocols o) k with
          | None => (s, true)
          | Some c => match new_view m [c] (oeps o) 1 (omax o) (ohappy o) with
                      | None => (s, true)
                      | Some (m1, p) => ((m1, vs ++ [mkRef p (ra f) (rb f)]), false)
                      end
          end
      end
  | RealPart i =>
      match nth_error vs i with
      | None => (s, true)
      | Some f =>
          let o := objs m (rfun f) in
          match new_view m (ocols o) (oeps o) (ohscale o) (omax o) (ohappy o) with
          | None => (s, true)
          | Some (m1, p) => ((m1, vs ++ [mkRef p (ra f) (rb f)]), false)
          end
      end
  | Do op i g =>
      if Nat.ltb i (length vs) && (match g with OFun j => Nat.ltb j (length vs) | ORow _ => true end) then
        let '(m1, b) := in_place m vs op i g in ((m1, vs), b)
      else (s, true)
  end.
(** a program; a statement that raises is caught and the next one runs *)
Definition run (s : state) (cs : list stmt) : state := fold_left (fun s c => fst (exec s c)) cs s.
Definition start : state := (mkMem (fun _ => []) 0 (fun _ => mkObj [] 0 0 0%Z false) 0, []).
(** the functions of a program as the user sees them *)
Definition shown (s : state) : list Fun := map (read (fst s)) (snd s).
