(** Constraints in a Newton step (C162): equations and constraints with integral terms, compiled separately, are added by
    LinSys; the system solved is the one of equation + constraint. *)
From Coq Require Import Reals ZArith List Arith Bool Lra Lia.
From Coquelicot Require Import Coquelicot.
From Verif Require Import Base ChebSpec ChebMath ChebModel ChebEval ChebBary UltraModel UltraSpec UltraProofs FnlModel OpModel OpSpec OpProofs OpSys OpArith PropOp SrcModel SrcSpec SrcProofs SrcLin SrcMain PropSrc PropSys SrcNlModel PropSrcNl.
Import ListNotations.
Open Scope R_scope.

(** ** model *)
Definition qnone : qblock := mkQ [] [] [] [].
Definition blk (X : sysop) (e q : nat) : qblock := nth q (nth e X []) qnone.
(** funpy/colloc/LinSys.py 47-66, quasi: linOp.quasi(u), plus c_linOp.quasi(u) when there are constraints. None = an exception *)
Definition linsys_quasi (S : sysop) (T : option sysop) : option sysop := match T with None => Some S | Some T => sys_add S T end.
(** LinSys.py 141-154, update_partial: rhs.values += c_rhs.values; both arrays have one column per unknown, Residual.update
    (rhs.py 44-53) leaves the columns without a constraint at zero and raises if there are more constraints than unknowns *)
Definition linsys_rhs (n : nat) (F G : list (list R)) : option (list (list R)) :=
  if Nat.leb (length G) (length F) then Some (mk (length F) (fun e => mk n (fun i => nth i (prolong1 (nth e F []) (Z.of_nat n)) 0 + nth i (prolong1 (nth e G []) (Z.of_nat n)) 0))) else None.

(** ** specification *)
(** an equation or constraint loc + sum m * Integral(f) of a system with nf unknowns that the compiler treats correctly (C156) *)
Definition nl_ok (E : env) (sp : bool) (a' b' : R) (K nf : nat) (s : sexp * list (sexp * sexp)) : Prop :=
  user nf (fst s) /\ (forall j, (j < nf)%nat -> (ode_order j (fst s) <= K)%nat) /\ defined_near E (e_pert E 1) a' b' (fst s) /\
  (forall m f, In (m, f) (snd s) -> user nf m /\ (forall j, (j < nf)%nat -> contains j m = false) /\ user nf f /\ (forall j, (j < nf)%nat -> ode_order j f = 0%nat) /\ defined_near E (e_pert E 1) a' b' f) /\
  (forall j, (j < nf)%nat -> NoDup (map snd (nl_terms sp j (snd s)))).
(** the functions held by a block are the compiled ones evaluated at the state *)
Definition holds_block (E : env) (a b : R) (K : nat) (B : list sexp * list (sexp * sexp)) (q : qblock) : Prop :=
  length (q_coeffs q) = S K /\ (forall k x, (k <= K)%nat -> a < x < b -> ufun a b (nth k (q_coeffs q) []) x = den E (nth k (fst B) (SNum 0)) x) /\
  length (q_ics q) = length (snd B) /\
  forall k, (k < length (snd B))%nat -> (forall x, a < x < b -> ufun a b (nth k (q_ics q) []) x = den E (fst (nth k (snd B) (SNum 0, SNum 0))) x) /\
    (forall y, a <= y <= b -> ufun a b (nth k (q_ints q) []) y = den E (snd (nth k (snd B) (SNum 0, SNum 0))) y).
Definition eq_at (l : list (sexp * list (sexp * sexp))) (e : nat) : sexp * list (sexp * sexp) := nth e l (SNum 0, []).
Definition holds_nl (E : env) (sp : bool) (a b : R) (K m : nat) (srcs : list (sexp * list (sexp * sexp))) (S : sysop) : Prop :=
  length srcs = m /\ length S = m /\ (forall e, (e < m)%nat -> length (nth e S []) = m) /\
  forall e j, (e < m)%nat -> (j < m)%nat -> exists B, nl_block sp K j (fst (eq_at srcs e)) (snd (eq_at srcs e)) = Some B /\ holds_block E a b K B (blk S e j).
Definition val (E : env) (a b : R) (s : sexp * list (sexp * sexp)) (x : R) : R := den_nl E a b (fst s) (snd s) x.
Definition holds_res (E : env) (a b : R) (m : nat) (srcs : list (sexp * list (sexp * sexp))) (F : list (list R)) : Prop :=
  length F = m /\ forall e x, (e < m)%nat -> a < x < b -> ufun a b (nth e F []) x = val E a b (eq_at srcs e) x.

(** ** proofs *)
Lemma lsum_nth {A} (f : A -> R) (l : list A) d : lsum f l = rsum (length l) (fun k => f (nth k l d)).
Proof.
  induction l as [|p l IH]; [reflexivity|]. cbn [lsum fold_right length]. fold (lsum f l). rewrite IH. rewrite rsum_S_l. reflexivity.
Qed.
Lemma block_action E a b K B q (v : R -> R) x : a <= b -> a < x < b -> holds_block E a b K B q -> length (fst B) = S K -> lin_op a b (q_coeffs q) (q_ics q) (q_ints q) v x = nl_apply E a b B v x.
Proof.
  intros Hab Hx [L [C [L2 I]]] LB. unfold lin_op, nl_apply. rewrite L, L2, LB. f_equal.
  - apply rsum_ext. intros k Hk. rewrite C by (try lia; exact Hx). reflexivity.
  - rewrite (lsum_nth _ (snd B) (SNum 0, SNum 0)). apply rsum_ext. intros k Hk. destruct (I k Hk) as [I1 I2]. rewrite I1 by exact Hx. f_equal. apply RInt_ext. intros y Hy. rewrite Rmin_left, Rmax_right in Hy by lra. rewrite I2 by lra. reflexivity.
Qed.
Lemma nl_block_length sp K j loc ts B : nl_block sp K j loc ts = Some B -> length (fst B) = S K.
Proof. unfold nl_block. destruct (existsb _ ts); [discriminate|]. intros H. injection H as <-. apply coeffs_length. Qed.
Lemma sys_frechet E sp a' b' a b K m srcs S U D e x : a' < a -> a < b -> b < b' -> smoothE E -> series_env E a b U D -> holds_nl E sp a b K m srcs S ->
  (forall e, (e < m)%nat -> nl_ok E sp a' b' K m (eq_at srcs e)) -> (e < m)%nat -> a < x < b ->
  is_derive (fun t => val (move E (e_pert E 1) t) a b (eq_at srcs e) x) 0 (sys_op a b m (blk S) D e x).
Proof.
  intros A1 A2 A3 SE [_ SD] [_ [_ [_ H]]] Ok He Hx. destruct (Ok e He) as (O1 & O2 & O3 & O4 & O5).
  destruct (C156_nonlocal_partial E sp K m (fst (eq_at srcs e)) (snd (eq_at srcs e)) a' b' a b x SE A1 ltac:(lra) A3 ltac:(lra) O1 O2 O3 O4 O5) as (B & HB & HD).
  evar_last; [exact HD|]. unfold sys_op. apply rsum_ext. intros j Hj. destruct (H e j He Hj) as (B' & HB' & Hq). rewrite HB in HB' by exact Hj. injection HB' as <-.
  rewrite <- (block_action E a b K (B j) (blk S e j)); [|lra|exact Hx|exact Hq|apply (nl_block_length _ _ _ _ _ _ (HB j Hj))].
  unfold lin_op. f_equal; apply rsum_ext; intros k Hk; f_equal; [apply Derive_n_ext; intros y; apply SD|]. apply RInt_ext. intros y _. rewrite (SD j y). reflexivity.
Qed.
Lemma newton_core a b n m K eps Q fs bcs D d Fs : a < b -> (3 <= n)%nat -> (K <= n)%nat -> length Fs = m ->
  length D = m -> List.Forall (fun c => length c = n) D -> List.Forall (fun r => length r = (n * m)%nat) fs -> length bcs = length fs -> sys_ok n m K eps Q -> (forall q, (q < m)%nat -> supported (d q) (nth q D [])) -> ints_fit n m Q d ->
  rows_apply (us_matrix n m K (b - a) eps Q fs) (concat D) = us_project n m K bcs (concat (residual_values n Fs)) ->
  (forall i, (i < length fs)%nat -> dotl (nth i fs []) (concat (polyval D)) = nth i bcs 0) /\
  (forall e, (e < m)%nat -> exists h, (forall i, (i + 2 * K < n)%nat -> nth i h 0 = 0) /\ forall x, sys_op a b m Q D e x = ufun a b (nth e Fs []) x + evalU K h (phi a b x)).
Proof.
  intros Hab Hn HK LF LD FD Ffs Lc Ok Sd IF M.
  destruct (system_leading a b n m K eps Q fs bcs D (residual_values n Fs) d Hab Hn HK LD (eq_trans (residual_length n Fs) LF) FD (residual_Forall n Fs) Ffs Lc Ok Sd IF M) as [B H]. split; [exact B|].
  intros e He. destruct (H e He) as (h & H1 & H2). destruct (tail_agrees K n (nth e Fs [])) as (g & G1 & G2); [lia|].
  set (N := Nat.max n (Nat.max (length h) (length g))). exists (mk N (fun i => nth i h 0 + -1 * nth i g 0)). split.
  - intros i Hi. rewrite nth_mk by lia. rewrite H1 by exact Hi. rewrite G1 by lia. rewrite nth_mk by lia. ring.
  - intros x. rewrite evalU_mk. rewrite (rsum_ext N _ (fun j => nth j h 0 * ubasis K j (phi a b x) + -1 * (nth j g 0 * ubasis K j (phi a b x)))) by (intros; ring). rewrite rsum_plus, rsum_scal. rewrite <- (evalU_ge K h), <- (evalU_ge K g) by lia.
    rewrite <- H2, G2. unfold ufun. rewrite residual_nth by lia. ring.
Qed.
Lemma nth_cadd c d i : nth i (cadd c d) 0 = nth i c 0 + nth i d 0.
Proof.
  unfold cadd. destruct (Nat.lt_ge_cases i (Nat.max (length c) (length d))) as [H|H]; [rewrite nth_mk by exact H; reflexivity|]. rewrite !nth_overflow; [ring|lia|lia|rewrite mk_length; lia].
Qed.
Lemma linsys_rhs_sum n F G : (length G <= length F)%nat -> linsys_rhs n F G = Some (residual_values n (mk (length F) (fun e => cadd (nth e F []) (nth e G [])))).
Proof.
  intros H. unfold linsys_rhs. apply Nat.leb_le in H. rewrite H. f_equal. unfold residual_values. apply (list_ext _ _ []).
  - rewrite map_length, !mk_length. reflexivity.
  - intros e He. rewrite mk_length in He. rewrite nth_mk by exact He. rewrite (nth_indep (map (fun f => prolong1 f (Z.of_nat n)) _) [] (prolong1 [] (Z.of_nat n))) by (rewrite map_length, mk_length; exact He). rewrite (map_nth (fun f => prolong1 f (Z.of_nat n))). rewrite nth_mk by exact He.
    apply (list_ext _ _ 0).
    + rewrite mk_length, prolong1_length, Nat2Z.id. reflexivity.
    + intros i Hi. rewrite mk_length in Hi. rewrite nth_mk by exact Hi. rewrite !prolong1_nth by (rewrite Nat2Z.id; exact Hi). rewrite nth_cadd. reflexivity.
Qed.
Lemma all_some_map {A B} (f : A -> option B) l : (forall x, In x l -> exists y, f x = Some y) -> exists r, all_some (map f l) = Some r.
Proof.
  induction l as [|x l IH]; intros H; [exists []; reflexivity|]. destruct (H x (or_introl eq_refl)) as [y Hy]. destruct IH as [r Hr]; [intros z Hz; apply H; now right|]. exists (y :: r). cbn [map all_some]. rewrite Hy, Hr. reflexivity.
Qed.
Lemma in_combine_nth {A B} (l : list A) (r : list B) p dl dr : In p (combine l r) -> exists k, (k < length l)%nat /\ (k < length r)%nat /\ p = (nth k l dl, nth k r dr).
Proof.
  revert r. induction l as [|x l IH]; intros [|y r] H; try contradiction. destruct H as [<-|H]; [exists 0%nat; cbn; repeat split; lia|]. destruct (IH r H) as (k & K1 & K2 & K3). exists (S k). cbn. repeat split; try lia. exact K3.
Qed.

(** ** C162 *)
(** adding the constraints succeeds when there are as many as equations, of the same order, and no entry has integrals on both sides *)
Theorem C162_defined_partial : forall m S T, length S = m -> length T = m -> (forall e, (e < m)%nat -> length (nth e S []) = m /\ length (nth e T []) = m) ->
  (forall e q, (e < m)%nat -> (q < m)%nat -> length (q_coeffs (blk S e q)) = length (q_coeffs (blk T e q)) /\ length (q_info (blk S e q)) = length (q_info (blk T e q)) /\ (q_ics (blk S e q) = [] \/ q_ics (blk T e q) = [])) ->
  exists X, linsys_quasi S (Some T) = Some X.
Proof.
  intros m S T LS LT LR H. unfold linsys_quasi, sys_add, zip_blocks. rewrite LS, LT, Nat.eqb_refl. cbn [andb].
  assert (FB : forallb (fun p : list qblock * list qblock => Nat.eqb (length (fst p)) (length (snd p))) (combine S T) = true).
  { apply forallb_forall. intros p Ip. destruct (in_combine_nth S T p [] [] Ip) as (k & K1 & K2 & ->). cbn [fst snd]. destruct (LR k ltac:(lia)) as [-> ->]. apply Nat.eqb_refl. }
  rewrite FB. apply all_some_map. intros p Ip. destruct (in_combine_nth S T p [] [] Ip) as (e & K1 & K2 & ->). cbn [fst snd]. apply all_some_map. intros p Ip'. destruct (in_combine_nth _ _ p qnone qnone Ip') as (q & J1 & J2 & ->). cbn [fst snd].
  destruct (LR e ltac:(lia)) as [R1 R2]. destruct (H e q ltac:(lia) ltac:(lia)) as (C & I & N). unfold blk in *. set (s := nth q (nth e S []) qnone) in *. set (t := nth q (nth e T []) qnone) in *.
  unfold q_add, loop_add. rewrite C, I, Nat.leb_refl, Nat.eqb_refl. destruct (q_ics s) eqn:X1; [eexists; reflexivity|]. destruct (q_ics t) eqn:X2; [eexists; reflexivity|]. destruct N; discriminate.
Qed.
Print Assumptions C162_defined_partial.
(** a correction D solving the assembled system satisfies the linearisation of equation + constraint, up to ultraspherical coefficients of index n - 2K and above *)
Theorem C162_correction_partial : forall E sp a' b' a b n m eps eqn cts U D F G S T X V fs bcs d, let K := diff_order m (map fst eqn) in
  a' < a -> a < b -> b < b' -> (3 <= n)%nat -> (K <= n)%nat -> smoothE E -> series_env E a b U D ->
  holds_nl E sp a b K m eqn S -> holds_nl E sp a b K m cts T -> (forall e, (e < m)%nat -> nl_ok E sp a' b' K m (eq_at eqn e) /\ nl_ok E sp a' b' K m (eq_at cts e)) ->
  holds_res E a b m eqn F -> holds_res E a b m cts G -> (forall e q, (e < m)%nat -> (q < m)%nat -> q_ics (blk S e q) = [] \/ q_ics (blk T e q) = []) ->
  linsys_quasi S (Some T) = Some X -> linsys_rhs n F G = Some V ->
  length D = m -> List.Forall (fun c => length c = n) D -> List.Forall (fun r => length r = (n * m)%nat) fs -> length bcs = length fs -> sys_ok n m K eps (blk X) -> (forall q, (q < m)%nat -> supported (d q) (nth q D [])) -> ints_fit n m (blk X) d ->
  rows_apply (us_matrix n m K (b - a) eps (blk X) fs) (concat D) = us_project n m K bcs (concat V) ->
  (forall i, (i < length fs)%nat -> dotl (nth i fs []) (concat (polyval D)) = nth i bcs 0) /\
  (forall e, (e < m)%nat -> exists h, (forall i, (i + 2 * K < n)%nat -> nth i h 0 = 0) /\
    forall x, a < x < b -> is_derive (fun t => val (move E (e_pert E 1) t) a b (eq_at eqn e) x + val (move E (e_pert E 1) t) a b (eq_at cts e) x) 0 (val E a b (eq_at eqn e) x + val E a b (eq_at cts e) x + evalU K h (phi a b x))).
Proof.
  intros E sp a' b' a b n m eps eqn cts U D F G S T X V fs bcs d K A1 A2 A3 Hn HK SE SV HS HT Ok HF HG NI QX RV LD FD Ffs Lc SO Sd IF M.
  destruct HF as [LF HF]. destruct HG as [LG HG]. rewrite linsys_rhs_sum in RV by lia. injection RV as <-.
  destruct (newton_core a b n m K eps (blk X) fs bcs D d _ A2 Hn HK ltac:(rewrite mk_length; exact LF) LD FD Ffs Lc SO Sd IF M) as [B H]. split; [exact B|].
  intros e He. destruct (H e He) as (h & H1 & H2). exists h. split; [exact H1|]. intros x Hx.
  evar_last; [apply (is_derive_plus (fun t => val (move E (e_pert E 1) t) a b (eq_at eqn e) x) (fun t => val (move E (e_pert E 1) t) a b (eq_at cts e) x))|].
  - apply (sys_frechet E sp a' b' a b K m eqn S U D e x); try assumption. intros i Hi. apply Ok, Hi.
  - apply (sys_frechet E sp a' b' a b K m cts T U D e x); try assumption. intros i Hi. apply Ok, Hi.
  - rewrite <- (HF e x He Hx), <- (HG e x He Hx). specialize (H2 x). rewrite nth_mk in H2 by lia. unfold ufun in H2 at 1. rewrite evalT_cadd in H2. unfold ufun. rewrite <- H2. unfold sys_op. rewrite <- rsum_plus. apply rsum_ext. intros q Hq.
    destruct HS as (_ & LS & LSr & HS). destruct HT as (_ & LT & LTr & HT). symmetry. apply (C106_system_add_partial S T X e q qnone QX); [lia|rewrite LSr by exact He; exact Hq| |apply (NI e q He Hq)].
    destruct (HS e q He Hq) as (B1 & _ & [L1 _]). destruct (HT e q He Hq) as (B2 & _ & [L2 _]). unfold blk in L1, L2. rewrite L1, L2. reflexivity.
Qed.
Print Assumptions C162_correction_partial.
(** without constraints: equations with integral terms *)
Theorem C162_integral_equations_partial : forall E sp a' b' a b n m eps eqn U D F S X fs bcs d, let K := diff_order m (map fst eqn) in
  a' < a -> a < b -> b < b' -> (3 <= n)%nat -> (K <= n)%nat -> smoothE E -> series_env E a b U D ->
  holds_nl E sp a b K m eqn S -> (forall e, (e < m)%nat -> nl_ok E sp a' b' K m (eq_at eqn e)) -> holds_res E a b m eqn F -> linsys_quasi S None = Some X ->
  length D = m -> List.Forall (fun c => length c = n) D -> List.Forall (fun r => length r = (n * m)%nat) fs -> length bcs = length fs -> sys_ok n m K eps (blk X) -> (forall q, (q < m)%nat -> supported (d q) (nth q D [])) -> ints_fit n m (blk X) d ->
  rows_apply (us_matrix n m K (b - a) eps (blk X) fs) (concat D) = us_project n m K bcs (concat (residual_values n F)) ->
  (forall i, (i < length fs)%nat -> dotl (nth i fs []) (concat (polyval D)) = nth i bcs 0) /\
  (forall e, (e < m)%nat -> exists h, (forall i, (i + 2 * K < n)%nat -> nth i h 0 = 0) /\
    forall x, a < x < b -> is_derive (fun t => val (move E (e_pert E 1) t) a b (eq_at eqn e) x) 0 (val E a b (eq_at eqn e) x + evalU K h (phi a b x))).
Proof.
  intros E sp a' b' a b n m eps eqn U D F S X fs bcs d K A1 A2 A3 Hn HK SE SV HS Ok [LF HF] QX LD FD Ffs Lc SO Sd IF M. injection QX as <-.
  destruct (newton_core a b n m K eps (blk S) fs bcs D d _ A2 Hn HK LF LD FD Ffs Lc SO Sd IF M) as [B H]. split; [exact B|].
  intros e He. destruct (H e He) as (h & H1 & H2). exists h. split; [exact H1|]. intros x Hx.
  evar_last; [apply (sys_frechet E sp a' b' a b K m eqn S U D e x); assumption|]. rewrite H2, (HF e x He Hx). reflexivity.
Qed.
Print Assumptions C162_integral_equations_partial.
(** a constraint of higher order than the equations: the flags of the two operators have different lengths and adding them raises *)
Definition shaped (L : list (list (list sexp))) (S : sysop) : Prop := length S = length L /\
  forall e, (e < length L)%nat -> length (nth e S []) = length (nth e L []) /\ forall j, (j < length (nth e L []))%nat -> length (q_info (blk S e j)) = Datatypes.S (length (nth j (nth e L []) [])).
Lemma order_raises S T e q : (e < length S)%nat -> (q < length (nth e S []))%nat -> length (q_info (blk S e q)) <> length (q_info (blk T e q)) -> linsys_quasi S (Some T) = None.
Proof.
  intros He Hq I. destruct (linsys_quasi S (Some T)) as [X|] eqn:E; [exfalso|reflexivity]. destruct (sys_add_block S T X E) as [_ B]. destruct (B e q qnone He Hq) as [_ Q].
  fold (blk S e q) in Q. fold (blk T e q) in Q. fold (blk X e q) in Q. unfold q_add in Q. destruct (loop_add _ _); [|discriminate]. apply Nat.eqb_neq in I. rewrite I in Q. discriminate.
Qed.
Theorem C162_order_refuted : exists eqn cts, length eqn = 1%nat /\ length cts = 1%nat /\ (forall s, In s (eqn ++ cts) -> user 1 s) /\
  forall S T, shaped (fst (fst (compile_lin 1 eqn cts))) S -> shaped (snd (fst (compile_lin 1 eqn cts))) T -> linsys_quasi S (Some T) = None.
Proof.
  exists [SFun 0 0], [SFun 0 2]. split; [reflexivity|]. split; [reflexivity|]. split; [intros s [<-|[<-|[]]]; cbn; lia|]. intros S T [LS HS] [LT HT]. cbn [compile_lin fst snd linearize map length] in *.
  destruct (HS 0%nat ltac:(lia)) as [L1 I1]. destruct (HT 0%nat ltac:(lia)) as [L2 I2]. specialize (I1 0%nat ltac:(cbn; lia)). specialize (I2 0%nat ltac:(cbn; lia)). cbn [nth seq map] in *.
  apply (order_raises S T 0 0); [lia|rewrite L1; cbn; lia|]. rewrite I1, I2. unfold lin_block, coeffs_of. rewrite !map_length, !seq_length. cbn. lia.
Qed.
Print Assumptions C162_order_refuted.
(** one constraint for a system of two equations raises *)
Theorem C162_number_refuted : forall S T, length S <> length T -> linsys_quasi S (Some T) = None.
Proof. intros S T H. unfold linsys_quasi, sys_add, zip_blocks. apply Nat.eqb_neq in H. rewrite H. reflexivity. Qed.
Print Assumptions C162_number_refuted.
(** an integral in the equation and one in the constraint: the coefficients and the integrands are added separately *)
Definition c162_env : env := mkEnv (fun _ => 1) (fun _ _ => 0) (fun _ _ => 0) (fun _ _ => ufun 0 1 [1]) 0.
Definition c162_eq : list (sexp * list (sexp * sexp)) := [(SNum 0, [(SNum 1, SFun 0 0)])].
Lemma c162_one x : ufun 0 1 [1] x = 1. Proof. unfold ufun, evalT. cbn. ring. Qed.
Lemma c162_zero x : ufun 0 1 [0] x = 0. Proof. unfold ufun, evalT. cbn. ring. Qed.
Lemma RInt_K01 (f : R -> R) c : (forall y, f y = c) -> RInt f 0 1 = c.
Proof. intros H. rewrite (RInt_ext f (fun _ => c)) by (intros; apply H). rewrite RInt_const. unfold scal; cbn; unfold mult; cbn. ring. Qed.
Theorem C162_integrals_refuted : exists E X, holds_nl E false 0 1 0 1 c162_eq [[qmean]] /\ series_env E 0 1 [[0]] [[1]] /\ linsys_quasi [[qmean]] (Some [[qmean]]) = Some X /\
  (forall x, 0 < x < 1 -> is_derive (fun t => val (move E (e_pert E 1) t) 0 1 (eq_at c162_eq 0) x + val (move E (e_pert E 1) t) 0 1 (eq_at c162_eq 0) x) 0 2) /\
  (forall x, sys_op 0 1 1 (blk X) [[1]] 0 x = 4).
Proof.
  exists (mkEnv (fun _ => 1) (fun _ _ => 0) (fun j => ufun 0 1 (nth j [[0]] [])) (fun _ j => ufun 0 1 (nth j [[1]] [])) 0). eexists. split; [|split; [split; reflexivity|split; [reflexivity|split]]].
  - split; [reflexivity|]. split; [reflexivity|]. split; [intros e He; replace e with 0%nat by lia; reflexivity|]. intros e j He Hj. replace e with 0%nat by lia. replace j with 0%nat by lia.
    unfold eq_at, c162_eq. cbn [nth fst snd]. unfold nl_block. cbn [existsb contains fst orb]. eexists. split; [reflexivity|]. unfold nl_terms. cbn [flat_map fst snd]. rewrite !frechet_fun. cbn [isz map app]. unfold nl_op. cbn [filter snd fst]. rewrite eqd. cbn [map].
    unfold holds_block. cbn [fst snd length]. split; [reflexivity|]. split; [|split; [reflexivity|]].
    + intros k x Hk Hx. replace k with 0%nat by lia. unfold lin_block. rewrite frechet_num. unfold ufun, evalT. cbn. ring.
    + intros k Hk. replace k with 0%nat by lia. cbn [nth fst snd]. split; intros; unfold ufun, evalT; cbn; ring.
  - intros x Hx. apply (is_derive_ext (fun t => 2 * t)).
    + intros t. unfold val, den_nl, eq_at, c162_eq. cbn [nth fst snd lsum fold_right den]. rewrite (RInt_K01 _ t); [lazymatch goal with |- @eq _ ?p ?q => enough (Z : @eq R p q) by exact Z end; ring|].
      intros y. cbn [Derive_n move e_fun e_pert nth]. rewrite c162_zero, c162_one. ring.
    + auto_derive; [exact I|ring].
  - intros x. unfold sys_op, blk, lin_op. cbn [rsum nth q_coeffs q_ics q_ints length fst snd qmean mk map seq Derive_n].
    rewrite (RInt_K01 _ 2); [unfold ufun, evalT; cbn; ring|]. intros y. unfold ufun, evalT. cbn. ring.
Qed.
Print Assumptions C162_integrals_refuted.
(** a case: u'' with the constraint Integral(u) - 2 on [-1,1] at u = 0 with 5 coefficients: d'' + Integral(d) = -2 has the solution d = -1 *)
Definition c162_eqn : list (sexp * list (sexp * sexp)) := [(SFun 0 2, [])].
Definition c162_cts : list (sexp * list (sexp * sexp)) := [(SNum (-2), [(SNum 1, SFun 0 0)])].
Definition c162_D : list (list R) := [[-1; 0; 0; 0; 0]].
Definition c162_E : env := mkEnv (fun _ => 0) (fun _ _ => 0) (fun j => ufun (-1) 1 (nth j [[0]] [])) (fun _ j => ufun (-1) 1 (nth j c162_D [])) 0.
Definition c162_S : sysop := [[mkQ [false; false; true; false] [[0]; [0]; [1]] [] []]].
Definition c162_T : sysop := [[mkQ [false; false; false; true] [[0]; [0]; [0]] [[1]] [[1]]]].
Definition c162_X : sysop := [[mkQ [false; false; true; true] [[0 + 0]; [0 + 0]; [1 + 0]] [[1]] [[1]]]].
Lemma c162_nil sp K : nl_block sp K 0 (SFun 0 2) [] = Some (lin_block K 0 (SFun 0 2), []). Proof. reflexivity. Qed.
Lemma frechet_n r : frechet 1 0 (SNum r) = SNum 0. Proof. reflexivity. Qed.
Example C162_ex : forall eps, smoothE c162_E /\ series_env c162_E (-1) 1 [[0]] c162_D /\ holds_nl c162_E false (-1) 1 2 1 c162_eqn c162_S /\ holds_nl c162_E false (-1) 1 2 1 c162_cts c162_T /\
  (forall e, (e < 1)%nat -> nl_ok c162_E false (-2) 2 2 1 (eq_at c162_eqn e) /\ nl_ok c162_E false (-2) 2 2 1 (eq_at c162_cts e)) /\ holds_res c162_E (-1) 1 1 c162_eqn [[0]] /\ holds_res c162_E (-1) 1 1 c162_cts [[-2]] /\
  linsys_quasi c162_S (Some c162_T) = Some c162_X /\ sys_ok 5 1 2 eps (blk c162_X) /\ ints_fit 5 1 (blk c162_X) (fun _ => 1%nat) /\ diff_order 1 (map fst c162_eqn) = 2%nat /\
  exists V, linsys_rhs 5 [[0]] [[-2]] = Some V /\ rows_apply (us_matrix 5 1 2 (1 - -1) eps (blk c162_X) []) (concat c162_D) = us_project 5 1 2 [] (concat V).
Proof.
  intros eps. assert (ND : forall s, locally 0 (fun t => dat (move c162_E (e_pert c162_E 1) t) 0 s) -> True) by (intros; exact I). clear ND.
  split. { split; [intros j; apply (smooth_K 0)|]. split; intros; apply smooth_ufun1. }
  split; [split; reflexivity|].
  split. { split; [reflexivity|]. split; [reflexivity|]. split; [intros e He; replace e with 0%nat by lia; reflexivity|]. intros e j He Hj. replace e with 0%nat by lia. replace j with 0%nat by lia. unfold eq_at, c162_eqn. cbn [nth fst snd]. rewrite c162_nil. eexists. split; [reflexivity|].
    unfold holds_block. cbn [fst snd length]. split; [reflexivity|]. split; [|split; [reflexivity|intros k Hk; lia]]. intros k x Hk Hx. unfold lin_block. rewrite frechet_fun. destruct k as [|[|[|k]]]; [| | |lia]; unfold ufun, evalT; cbn; ring. }
  split. { split; [reflexivity|]. split; [reflexivity|]. split; [intros e He; replace e with 0%nat by lia; reflexivity|]. intros e j He Hj. replace e with 0%nat by lia. replace j with 0%nat by lia. unfold eq_at, c162_cts. cbn [nth fst snd]. unfold nl_block. cbn [existsb contains fst orb]. eexists. split; [reflexivity|].
    unfold nl_terms. cbn [flat_map fst snd]. rewrite !frechet_fun. cbn [isz map app]. unfold nl_op. cbn [filter snd fst]. rewrite eqd. cbn [map].
    unfold holds_block. cbn [fst snd length]. split; [reflexivity|]. split; [|split; [reflexivity|]].
    - intros k x Hk Hx. unfold lin_block. rewrite frechet_n. destruct k as [|[|[|k]]]; [| | |lia]; unfold ufun, evalT; cbn; ring.
    - intros k Hk. replace k with 0%nat by lia. cbn [nth fst snd]. split; intros; unfold ufun, evalT; cbn; ring. }
  split. { intros e He. replace e with 0%nat by lia. unfold eq_at, nl_ok. cbn [nth c162_eqn c162_cts fst snd]. split.
    - split; [cbn; lia|]. split; [intros j Hj; replace j with 0%nat by lia; cbn; lia|]. split; [unfold defined_near; apply filter_forall; intros; exact I|]. split; [intros m f []|]. intros j Hj. constructor.
    - split; [exact I|]. split; [intros j Hj; cbn; lia|]. split; [unfold defined_near; apply filter_forall; intros; exact I|]. split.
      + intros m f [X|[]]. injection X as <- <-. split; [exact I|]. split; [reflexivity|]. split; [cbn; lia|]. split; [intros j Hj; replace j with 0%nat by lia; reflexivity|]. unfold defined_near; apply filter_forall; intros; exact I.
      + intros j Hj. replace j with 0%nat by lia. unfold nl_terms. cbn [flat_map snd fst]. rewrite frechet_fun. cbn [isz app map snd]. constructor; [intros []|constructor]. }
  assert (Z0 : forall x, ufun (-1) 1 [0] x = 0) by (intros x; unfold ufun, evalT; cbn; ring).
  split. { split; [reflexivity|]. intros e x He Hx. replace e with 0%nat by lia. unfold val, den_nl, eq_at, c162_eqn. cbn [nth fst snd lsum fold_right den c162_E e_fun]. rewrite Rplus_0_r. rewrite (Derive_n_ext (ufun (-1) 1 [0]) (fun _ => 0) 2 x) by exact Z0. rewrite Derive_n_K by lia. apply Z0. }
  split. { split; [reflexivity|]. intros e x He Hx. replace e with 0%nat by lia. unfold val, den_nl, eq_at, c162_cts. cbn [nth fst snd lsum fold_right den c162_E e_fun Derive_n]. rewrite (RInt_K _ 0) by exact Z0. unfold ufun, evalT. cbn. ring. }
  split; [reflexivity|].
  assert (OK : sys_ok 5 1 2 eps (blk c162_X)).
  { intros e q He Hq. replace e with 0%nat by lia. replace q with 0%nat by lia. unfold blk. cbn [nth c162_X q_info q_coeffs q_ics q_ints]. split.
    - split; [|cbn; discriminate]. intros j Hj Fj x. cbn in Hj. destruct j as [|[|[|j]]]; [| | |lia]; cbn in Fj; try discriminate; unfold evalT; cbn; ring.
    - split; [|split; [reflexivity|]].
      + intros j Hj. cbn in Hj. split; [lia|]. left. destruct j as [|[|[|j]]]; [| | |lia]; reflexivity.
      + intros k Hk. cbn in Hk. replace k with 0%nat by lia. split; left; reflexivity. }
  assert (IF : ints_fit 5 1 (blk c162_X) (fun _ => 1%nat)). { intros e q k He Hq Hk. replace e with 0%nat in * by lia. replace q with 0%nat in * by lia. cbn in Hk. replace k with 0%nat by lia. cbn. lia. }
  split; [exact OK|]. split; [exact IF|]. split; [reflexivity|]. eexists. split; [apply linsys_rhs_sum; cbn; lia|].
  set (V := mk (length [[0]]) (fun e => cadd (nth e [[0]] []) (nth e [[-2]] []))).
  apply (proj2 (system_exact (-1) 1 5 1 2 eps (blk c162_X) [] [] c162_D (residual_values 5 V) (fun _ => 1%nat) ltac:(lra) ltac:(lia) ltac:(lia) eq_refl eq_refl ltac:(repeat constructor) (residual_Forall 5 V) ltac:(constructor) eq_refl OK ltac:(intros q Hq i Hi; replace q with 0%nat by lia; do 5 (destruct i as [|i]; [try lia; reflexivity|]); destruct i; reflexivity) IF ltac:(intros e q j He Hq Hj; replace e with 0%nat in * by lia; replace q with 0%nat in * by lia; cbn in Hj; destruct j as [|[|[|j]]]; [| | |lia]; cbn; lia))).
  split; [intros i Hi; cbn in Hi; lia|]. intros e He. replace e with 0%nat by lia. exists (repeat 0 5). split; [reflexivity|]. split; [intros i _; do 6 (destruct i as [|i]; [reflexivity|]); reflexivity|].
  intros x. assert (H0 : evalU 2 (repeat 0 5) (phi (-1) 1 x) = 0). { unfold evalU. apply rsum_zero. intros j Hj. replace (nth j (repeat 0 5) 0) with 0; [ring|]. do 5 (destruct j as [|j]; [reflexivity|]). cbn in Hj. lia. }
  rewrite H0. assert (M1 : forall y, ufun (-1) 1 (nth 0 c162_D []) y = -1) by (intros y; unfold ufun, evalT; cbn; ring).
  rewrite residual_nth by (cbn; lia). unfold ufun at 1. rewrite (prolong_eval' 5) by (cbn; lia). replace (evalT (nth 0 V []) (phi (-1) 1 x)) with (-2) by (unfold evalT; cbn; ring).
  unfold sys_op, lin_op, blk. cbn [rsum c162_X q_coeffs q_ics q_ints length nth]. rewrite (Derive_n_ext _ (fun _ => -1) 2 x M1), Derive_n_K by lia. rewrite (RInt_K _ (-1)) by (intros y; rewrite M1; unfold ufun, evalT; cbn; ring).
  generalize (Derive_n (ufun (-1) 1 (nth 0 c162_D [])) 1 x). intros r. change (Derive_n (ufun (-1) 1 (nth 0 c162_D [])) 0 x) with (ufun (-1) 1 (nth 0 c162_D []) x). rewrite M1. unfold ufun, evalT. cbn. ring.
Qed.
