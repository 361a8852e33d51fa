(** Determinants: multilinear alternating functions of the columns are
    multiples of the determinant; products, Cramer's rule, rank one updates,
    permuted columns. *)
From Coq Require Import Reals List Arith Lia Lra.
From Verif Require Import Base DetSpec.
Open Scope R_scope.

Definition ident : fmat := fun i j => if Nat.eqb i j then 1 else 0.
(** a multilinear alternating function of k columns of height n *)
Record mla (n k : nat) (F : fmat -> R) : Prop := {
  mla_ext : forall A B, (forall i j, (i < n)%nat -> (j < k)%nat -> A i j = B i j) -> F A = F B;
  mla_lin : forall A c u v a b, (c < k)%nat -> F (setcol A c (fun i => a * u i + b * v i)) = a * F (setcol A c u) + b * F (setcol A c v);
  mla_alt : forall A c, (S c < k)%nat -> (forall i, (i < n)%nat -> A i c = A i (S c)) -> F A = 0 }.
Lemma det_mla n : mla n n (det n).
Proof. split; [apply det_ext|apply det_lin|apply det_alt]. Qed.

(** insert the column u before column j *)
Definition ins (N : fmat) (j : nat) (u : nat -> R) : fmat := fun i c => if Nat.ltb c j then N i c else if Nat.eqb c j then u i else N i (c - 1)%nat.
Ltac cols := unfold setcol2 in *; unfold ins, setcol, dropcol, ident in *; repeat match goal with |- context [Nat.ltb ?a ?b] => destruct (Nat.ltb_spec a b) | |- context [Nat.eqb ?a ?b] => destruct (Nat.eqb_spec a b) end;
  subst; try lia; try reflexivity; try (f_equal; lia).

Section mla.
  Variables (n k : nat) (F : fmat -> R).
  Hypothesis H : mla n k F.
  Lemma m_zero A c : (c < k)%nat -> (forall i, (i < n)%nat -> A i c = 0) -> F A = 0.
  Proof.
    intros Hc Hz. rewrite (mla_ext _ _ _ H A (setcol A c (fun i => 0 * 0 + 0 * 0))).
    - rewrite (mla_lin _ _ _ H A c (fun _ => 0) (fun _ => 0) 0 0 Hc). ring.
    - intros i j Hi Hj. unfold setcol. destruct (Nat.eqb_spec j c); [subst; rewrite Hz by exact Hi; ring|reflexivity].
  Qed.
  Lemma m_2lin_l A c u1 u2 a b v : (S c < k)%nat -> F (setcol2 A c (fun i => a * u1 i + b * u2 i) v) = a * F (setcol2 A c u1 v) + b * F (setcol2 A c u2 v).
  Proof.
    intros Hc. assert (E : forall u, F (setcol2 A c u v) = F (setcol (setcol A (S c) v) c u)).
    { intros u. apply (mla_ext _ _ _ H). intros i j _ _. cols. }
    rewrite !E. apply (mla_lin _ _ _ H). lia.
  Qed.
  Lemma m_2alt A c u : (S c < k)%nat -> F (setcol2 A c u u) = 0.
  Proof. intros Hc. apply (mla_alt _ _ _ H) with c; [exact Hc|]. intros i _. cols. Qed.
  Lemma m_swap2 A c u v : (S c < k)%nat -> F (setcol2 A c v u) = - F (setcol2 A c u v).
  Proof.
    intros Hc. assert (Q := m_2alt A c (fun i => 1 * u i + 1 * v i) Hc). rewrite m_2lin_l in Q by exact Hc. unfold setcol2 in Q at 1 2.
    rewrite !(mla_lin _ _ _ H) in Q by exact Hc. fold (setcol2 A c u u) (setcol2 A c u v) (setcol2 A c v u) (setcol2 A c v v) in Q. rewrite !m_2alt in Q by exact Hc. lra.
  Qed.
  Lemma m_move1 N j u : (S j < k)%nat -> F (ins N (S j) u) = - F (ins N j u).
  Proof.
    intros Hj. rewrite (mla_ext _ _ _ H (ins N (S j) u) (setcol2 (ins N j u) j (fun i => N i j) u)) by (intros i c _ _; cols).
    rewrite (mla_ext _ _ _ H (ins N j u) (setcol2 (ins N j u) j u (fun i => N i j))) by (intros i c _ _; cols). apply m_swap2, Hj.
  Qed.
  Lemma m_move N j p u : (j + p < k)%nat -> F (ins N (j + p) u) = (-1) ^ p * F (ins N j u).
  Proof.
    induction p as [|p IH]; intros Hp; [rewrite Nat.add_0_r; cbn; ring|]. rewrite <- plus_n_Sm, m_move1 by lia. rewrite IH by lia. cbn [pow]. ring.
  Qed.
  Lemma m_eq_cols A p q : (p < q)%nat -> (q < k)%nat -> (forall i, (i < n)%nat -> A i p = A i q) -> F A = 0.
  Proof.
    intros Hpq Hq E. rewrite (mla_ext _ _ _ H A (ins (dropcol A q) (S p + (q - S p)) (fun i => A i q))).
    - rewrite m_move by lia. rewrite (mla_alt _ _ _ H _ p); [ring|lia|]. intros i Hi. unfold ins. destruct (Nat.ltb_spec p (S p)); [|lia].
      destruct (Nat.ltb_spec (S p) (S p)); [lia|]. rewrite Nat.eqb_refl. unfold dropcol. destruct (Nat.ltb_spec p q); [|lia]. apply E, Hi.
    - intros i c Hi Hc. replace (S p + (q - S p))%nat with q by lia. cols.
  Qed.
  Lemma m_eq_cols' A p q : p <> q -> (p < k)%nat -> (q < k)%nat -> (forall i, (i < n)%nat -> A i p = A i q) -> F A = 0.
  Proof.
    intros Hne Hp Hq E. destruct (Nat.lt_ge_cases p q) as [L|L]; [apply (m_eq_cols A p q); assumption|].
    apply (m_eq_cols A q p); [lia|assumption|]. intros i Hi. symmetry. apply E, Hi.
  Qed.
  (** adding a multiple of column p to column c *)
  Lemma m_addcol A c p a : c <> p -> (c < k)%nat -> (p < k)%nat -> F (setcol A c (fun i => A i c + a * A i p)) = F A.
  Proof.
    intros Hne Hc Hp. rewrite (mla_ext _ _ _ H _ (setcol A c (fun i => 1 * A i c + a * A i p))) by (intros i j _ _; cols; ring).
    rewrite (mla_lin _ _ _ H A c (fun i => A i c) (fun i => A i p) 1 a Hc). rewrite (m_eq_cols' (setcol A c (fun i => A i p)) c p Hne Hc Hp).
    - rewrite (mla_ext _ _ _ H (setcol A c (fun i => A i c)) A) by (intros i j _ _; cols). ring.
    - intros i _. cols.
  Qed.
  (** rank one update: the first p columns get a multiple of u *)
  Definition mixed (M : fmat) (u : nat -> R) (a : nat -> R) (p : nat) : fmat := fun i c => if Nat.ltb c p then M i c + u i * a c else M i c.
  Lemma m_mixed_set M u a p q : (q <= p)%nat -> (p < k)%nat -> F (setcol (mixed M u a q) p u) = F (setcol M p u).
  Proof.
    induction q as [|q IH]; intros Hq Hp.
    - apply (mla_ext _ _ _ H). intros i c _ _. unfold mixed, setcol. destruct (Nat.ltb_spec c 0); [lia|reflexivity].
    - rewrite <- IH by lia. rewrite <- (m_addcol (setcol (mixed M u a q) p u) q p (a q)) by lia.
      apply (mla_ext _ _ _ H). intros i c _ _. unfold mixed, setcol. rewrite Nat.eqb_refl.
      destruct (Nat.eqb_spec q p); [lia|]. destruct (Nat.eqb_spec c p), (Nat.eqb_spec c q); subst; try lia; try reflexivity.
      + destruct (Nat.ltb_spec q (S q)), (Nat.ltb_spec q q); try lia. ring.
      + destruct (Nat.ltb_spec c (S q)), (Nat.ltb_spec c q); try lia; reflexivity.
  Qed.
  Lemma m_mixed M u a p : (p <= k)%nat -> F (mixed M u a p) = F M + rsum p (fun j => a j * F (setcol M j u)).
  Proof.
    induction p as [|p IH]; intros Hp.
    - cbn [rsum]. rewrite Rplus_0_r. apply (mla_ext _ _ _ H). intros i c _ _. unfold mixed. destruct (Nat.ltb_spec c 0); [lia|reflexivity].
    - cbn [rsum]. rewrite <- Rplus_assoc, <- IH by lia. rewrite <- (m_mixed_set M u a p p) by lia.
      rewrite (mla_ext _ _ _ H (mixed M u a (S p)) (setcol (mixed M u a p) p (fun i => 1 * M i p + a p * u i))).
      + rewrite (mla_lin _ _ _ H (mixed M u a p) p (fun i => M i p) u 1 (a p)) by lia. rewrite Rmult_1_l. f_equal.
        apply (mla_ext _ _ _ H). intros i c _ _. unfold mixed, setcol. destruct (Nat.eqb_spec c p); [subst|reflexivity]. destruct (Nat.ltb_spec p p); [lia|reflexivity].
      + intros i c _ _. unfold mixed, setcol. destruct (Nat.eqb_spec c p); [subst; destruct (Nat.ltb_spec p (S p)); [ring|lia]|].
        destruct (Nat.ltb_spec c (S p)), (Nat.ltb_spec c p); try lia; reflexivity.
  Qed.
  Lemma m_rank1 M u a : F (fun i c => M i c + u i * a c) = F M + rsum k (fun j => a j * F (setcol M j u)).
  Proof.
    rewrite <- (m_mixed M u a k) by lia. apply (mla_ext _ _ _ H). intros i c _ Hc. unfold mixed. destruct (Nat.ltb_spec c k); [reflexivity|lia].
  Qed.
  (** sums in one column, Cramer's rule *)
  Lemma m_sumcol A c m (w : nat -> nat -> R) (x : nat -> R) : (c < k)%nat -> F (setcol A c (fun i => rsum m (fun q => w i q * x q))) = rsum m (fun q => x q * F (setcol A c (fun i => w i q))).
  Proof.
    intros Hc. induction m as [|m IH]; cbn [rsum].
    - apply (m_zero _ c Hc). intros i _. unfold setcol. rewrite Nat.eqb_refl. reflexivity.
    - rewrite <- IH. rewrite (mla_ext _ _ _ H _ (setcol A c (fun i => 1 * rsum m (fun q => w i q * x q) + x m * w i m))) by (intros i j _ _; unfold setcol; destruct (Nat.eqb j c); ring).
      rewrite (mla_lin _ _ _ H A c (fun i => rsum m (fun q => w i q * x q)) (fun i => w i m) 1 (x m) Hc). ring.
  Qed.
  Lemma m_cramer A c x : (c < k)%nat -> F (setcol A c (fun i => rsum k (fun q => A i q * x q))) = x c * F A.
  Proof.
    intros Hc. rewrite m_sumcol by exact Hc. rewrite (rsum_single k _ c Hc).
    - f_equal. apply (mla_ext _ _ _ H). intros i j _ _. cols.
    - intros q Hq Hne. rewrite (m_eq_cols' (setcol A c (fun i => A i q)) c q); [ring|congruence|exact Hc|exact Hq|]. intros i _. cols.
  Qed.
  (** swap two columns *)
  Definition colperm (A : fmat) (p : nat -> nat) : fmat := fun i j => A i (p j).
  Definition trn (p q j : nat) : nat := if Nat.eqb j p then q else if Nat.eqb j q then p else j.
  Lemma m_swap A p q : p <> q -> (p < k)%nat -> (q < k)%nat -> F (colperm A (trn p q)) = - F A.
  Proof.
    intros Hne Hp Hq. set (B := fun x y => setcol (setcol A p x) q y).
    assert (L1 : forall u1 u2 v, F (B (fun i => 1 * u1 i + 1 * u2 i) v) = F (B u1 v) + F (B u2 v)).
    { intros u1 u2 v. assert (E : forall u, F (B u v) = F (setcol (setcol A q v) p u)) by (intros u; apply (mla_ext _ _ _ H); intros i j _ _; unfold B; cols).
      rewrite !E. rewrite (mla_lin _ _ _ H) by exact Hp. ring. }
    assert (L2 : forall u v1 v2, F (B u (fun i => 1 * v1 i + 1 * v2 i)) = F (B u v1) + F (B u v2)).
    { intros u v1 v2. unfold B. rewrite (mla_lin _ _ _ H) by exact Hq. ring. }
    assert (Z : forall u, F (B u u) = 0).
    { intros u. apply (m_eq_cols' (B u u) p q Hne Hp Hq). intros i _. unfold B. cols. }
    assert (Q := Z (fun i => 1 * A i p + 1 * A i q)). rewrite L1, !L2, !Z in Q.
    rewrite (mla_ext _ _ _ H (B (fun i => A i p) (fun i => A i q)) A) in Q by (intros i j _ _; unfold B; cols).
    rewrite (mla_ext _ _ _ H (B (fun i => A i q) (fun i => A i p)) (colperm A (trn p q))) in Q by (intros i j _ _; unfold B, colperm, trn; cols). lra.
  Qed.
End mla.

(** fixing one column *)
Lemma mla_ins n k F j u : mla n (S k) F -> (j <= k)%nat -> mla n k (fun N => F (ins N j u)).
Proof.
  intros H Hj. split.
  - intros A B E. apply (mla_ext _ _ _ H). intros i c Hi Hc. unfold ins. destruct (Nat.ltb_spec c j); [apply E; lia|]. destruct (Nat.eqb_spec c j); [reflexivity|]. apply E; lia.
  - intros A c w v a b Hc. set (c' := if Nat.ltb c j then c else S c).
    assert (E : forall w, F (ins (setcol A c w) j u) = F (setcol (ins A j u) c' w)).
    { intros w0. apply (mla_ext _ _ _ H). intros i q _ _. unfold c'. destruct (Nat.ltb_spec c j); unfold ins, setcol;
      repeat match goal with |- context [Nat.ltb ?a ?b] => destruct (Nat.ltb_spec a b) | |- context [Nat.eqb ?a ?b] => destruct (Nat.eqb_spec a b) end; try lia; reflexivity. }
    rewrite !E. apply (mla_lin _ _ _ H). unfold c'. destruct (Nat.ltb_spec c j); lia.
  - intros A c Hc E. destruct (Nat.eq_dec (S c) j) as [Ej|Ej].
    + apply (m_eq_cols n (S k) F H _ c (S (S c))); try lia. intros i Hi. unfold ins. destruct (Nat.ltb_spec c j); [|lia]. destruct (Nat.ltb_spec (S (S c)) j); [lia|].
      destruct (Nat.eqb_spec (S (S c)) j); [lia|]. cbn. apply E, Hi.
    + set (c' := if Nat.ltb c j then c else S c). apply (mla_alt _ _ _ H _ c'); [unfold c'; destruct (Nat.ltb_spec c j); lia|].
      intros i Hi. unfold ins, c'. destruct (Nat.ltb_spec c j).
      * destruct (Nat.ltb_spec c j), (Nat.ltb_spec (S c) j); try lia. apply E, Hi.
      * destruct (Nat.ltb_spec (S c) j), (Nat.ltb_spec (S (S c)) j); try lia. destruct (Nat.eqb_spec (S c) j), (Nat.eqb_spec (S (S c)) j); try lia. cbn. rewrite Nat.sub_0_r. apply E, Hi.
Qed.
Definition clear_row (M : fmat) (r : nat) : fmat := fun i c => if Nat.eqb i r then 0 else M i c.
Definition unitv (r : nat) : nat -> R := fun i => if Nat.eqb i r then 1 else 0.
(** columns supported on fewer than k rows *)
Lemma m_few r : forall n k F M, mla n k F -> (r < k)%nat -> (forall i c, (i < n)%nat -> (c < k)%nat -> (r <= i)%nat -> M i c = 0) -> F M = 0.
Proof.
  induction r as [|r IH]; intros n k F M H Hr Hs.
  - apply (m_zero n k F H M 0 Hr). intros i Hi. apply Hs; lia.
  - rewrite (mla_ext _ _ _ H M (fun i c => clear_row M r i c + unitv r i * M r c)).
    2:{ intros i c _ _. unfold clear_row, unitv. destruct (Nat.eqb_spec i r); [subst|]; ring. }
    rewrite (m_rank1 n k F H). assert (Z0 : F (clear_row M r) = 0) by (apply (IH n k F (clear_row M r) H); [lia|]; intros i c Hi Hc L; unfold clear_row; destruct (Nat.eqb_spec i r); [reflexivity|]; apply Hs; lia). rewrite Z0.
    rewrite rsum_zero; [ring|]. intros j Hj. destruct k as [|k]; [lia|].
    rewrite (mla_ext _ _ _ H (setcol (clear_row M r) j (unitv r)) (ins (dropcol (clear_row M r) j) j (unitv r))).
    2:{ intros i c _ _. cols. }
    assert (Hi := mla_ins n k F j (unitv r) H ltac:(lia)). rewrite (IH n k _ (dropcol (clear_row M r) j) Hi); [ring|lia|].
    intros i c Hin Hc L. unfold dropcol, clear_row. destruct (Nat.eqb_spec i r); [reflexivity|]. apply Hs; try lia. destruct (Nat.ltb_spec c j); lia.
Qed.
(** uniqueness *)
Lemma mla_det n : forall F M, mla n n F -> F M = F ident * det n M.
Proof.
  induction n as [|n IH]; intros F M H.
  - cbn [det]. rewrite Rmult_1_r. apply (mla_ext _ _ _ H). intros; lia.
  - rewrite (mla_ext _ _ _ H M (fun i c => clear_row M n i c + unitv n i * M n c)).
    2:{ intros i c _ _. unfold clear_row, unitv. destruct (Nat.eqb_spec i n); [subst|]; ring. }
    rewrite (m_rank1 _ _ F H). assert (Z0 : F (clear_row M n) = 0) by (apply (m_few n (S n) (S n) F (clear_row M n) H); [lia|]; intros i c Hi Hc L; unfold clear_row; destruct (Nat.eqb_spec i n); [reflexivity|lia]). rewrite Z0.
    rewrite Rplus_0_l. cbn [det]. rewrite <- rsum_scal. apply rsum_ext. intros j Hj.
    rewrite (mla_ext _ _ _ H (setcol (clear_row M n) j (unitv n)) (ins (dropcol (clear_row M n) j) j (unitv n))) by (intros i c _ _; cols).
    assert (Q := m_move _ _ F H (dropcol (clear_row M n) j) j (n - j) (unitv n) ltac:(lia)). replace (j + (n - j))%nat with n in Q by lia.
    (* G: the columns with row n cleared, then the unit column *)
    set (G := fun N => F (ins (clear_row N n) n (unitv n))).
    assert (HG : mla n n G).
    { split.
      - intros A B E. apply (mla_ext _ _ _ H). intros i c Hi Hc. unfold ins, clear_row. destruct (Nat.ltb_spec c n); [|destruct (Nat.eqb_spec c n); [reflexivity|lia]].
        destruct (Nat.eqb_spec i n); [reflexivity|]. apply E; lia.
      - intros A c u v a b Hc. unfold G. assert (E : forall w, F (ins (clear_row (setcol A c w) n) n (unitv n)) = F (setcol (ins (clear_row A n) n (unitv n)) c (fun i => if Nat.eqb i n then 0 else w i))).
        { intros w. apply (mla_ext _ _ _ H). intros i q _ _. unfold ins, clear_row, setcol, unitv. repeat match goal with |- context [Nat.ltb ?a ?b] => destruct (Nat.ltb_spec a b) | |- context [Nat.eqb ?a ?b] => destruct (Nat.eqb_spec a b) end; try lia; reflexivity. }
        rewrite !E. rewrite <- (mla_lin _ _ _ H) by lia. apply (mla_ext _ _ _ H). intros i q _ _. unfold setcol. destruct (Nat.eqb q c); [|reflexivity]. destruct (Nat.eqb i n); [ring|reflexivity].
      - intros A c Hc E. unfold G. apply (mla_alt _ _ _ H _ c); [lia|]. intros i Hi. unfold ins, clear_row. destruct (Nat.ltb_spec c n), (Nat.ltb_spec (S c) n); try lia. destruct (Nat.eqb_spec i n); [reflexivity|]. apply E. lia. }
    assert (EG : F (ins (dropcol (clear_row M n) j) n (unitv n)) = G (dropcol M j)).
    { unfold G. apply (mla_ext _ _ _ H). intros i c _ _. unfold ins, clear_row, dropcol. reflexivity. }
    assert (GI : G ident = F ident).
    { unfold G. apply (mla_ext _ _ _ H). intros i c Hi Hc. unfold ins, clear_row, ident, unitv. repeat match goal with |- context [Nat.ltb ?a ?b] => destruct (Nat.ltb_spec a b) | |- context [Nat.eqb ?a ?b] => destruct (Nat.eqb_spec a b) end; try lia; reflexivity. }
    rewrite EG, (IH G _ HG), GI in Q.
    assert (S1 : (-1) ^ (n - j) * (-1) ^ (n - j) = 1) by (rewrite <- Rpow_mult_distr; replace (-1 * -1) with 1 by ring; apply pow1).
    replace ((-1) ^ (n + j)) with ((-1) ^ (n - j)).
    2:{ replace (n + j)%nat with (n - j + 2 * j)%nat by lia. rewrite pow_add, pow_mult. replace ((-1) ^ 2) with 1 by ring. rewrite pow1. ring. }
    set (x := F (ins (dropcol (clear_row M n) j) j (unitv n))) in *. set (s := (-1) ^ (n - j)) in *. set (dm := det n (dropcol M j)) in *.
    replace x with (s * s * x) by (rewrite S1; ring). rewrite (Rmult_assoc s s x), <- Q. ring.
Qed.
Definition mmul (n : nat) (A B : fmat) : fmat := fun i j => rsum n (fun q => A i q * B q j).
Lemma det_ident n : det n ident = 1.
Proof.
  induction n as [|n IH]; [reflexivity|]. rewrite det_last; [|intros j Hj; unfold ident; destruct (Nat.eqb_spec n j); [lia|reflexivity]].
  rewrite IH. unfold ident. rewrite Nat.eqb_refl. ring.
Qed.
Lemma mmul_ident_r n A i j : (j < n)%nat -> mmul n A ident i j = A i j.
Proof.
  intros Hj. unfold mmul. rewrite (rsum_single n _ j Hj); [unfold ident; rewrite Nat.eqb_refl; ring|]. intros q _ Hne. unfold ident. destruct (Nat.eqb_spec q j); [contradiction|ring].
Qed.
Lemma det_mul n A B : det n (mmul n A B) = det n A * det n B.
Proof.
  set (F := fun B => det n (mmul n A B)). assert (H : mla n n F).
  { assert (D := det_mla n). split.
    - intros X Y E. apply det_ext. intros i j Hi Hj. unfold mmul. apply rsum_ext. intros q Hq. rewrite E by assumption. reflexivity.
    - intros X c u v a b Hc. unfold F.
      assert (E : forall w, det n (mmul n A (setcol X c w)) = det n (setcol (mmul n A X) c (fun i => rsum n (fun q => A i q * w q)))).
      { intros w. apply det_ext. intros i j _ _. unfold mmul, setcol. destruct (Nat.eqb j c); reflexivity. }
      rewrite !E, <- (mla_lin _ _ _ D) by exact Hc. apply det_ext. intros i j _ _. unfold setcol. destruct (Nat.eqb j c); [|reflexivity].
      rewrite <- !rsum_scal, <- rsum_plus. apply rsum_ext. intros; ring.
    - intros X c Hc E. apply (mla_alt _ _ _ D _ c Hc). intros i Hi. unfold mmul. apply rsum_ext. intros q Hq. rewrite E by exact Hq. reflexivity. }
  change (F B = det n A * det n B). rewrite (mla_det n F B H). f_equal. apply det_ext. intros i j _ Hj. apply mmul_ident_r, Hj.
Qed.
(** I + u a^T *)
Lemma det_rank1 n u a : det n (fun i j => ident i j + u i * a j) = 1 + rsum n (fun j => a j * u j).
Proof.
  rewrite (m_rank1 n n (det n) (det_mla n)), det_ident. f_equal. apply rsum_ext. intros j Hj. f_equal.
  rewrite (det_ext n _ (setcol ident j (fun i => rsum n (fun q => ident i q * u q)))).
  - rewrite (m_cramer n n (det n) (det_mla n) ident j u Hj), det_ident. ring.
  - intros i c Hi Hc. unfold setcol. destruct (Nat.eqb c j); [|reflexivity]. rewrite (rsum_single n _ i Hi); [unfold ident; rewrite Nat.eqb_refl; ring|].
    intros q _ Hne. unfold ident. destruct (Nat.eqb_spec i q); [congruence|ring].
Qed.
Fixpoint rprod (n : nat) (f : nat -> R) : R := match n with O => 1 | S k => rprod k f * f k end.
Lemma det_upper n A : (forall i j, (i < n)%nat -> (j < i)%nat -> A i j = 0) -> det n A = rprod n (fun i => A i i).
Proof.
  induction n as [|n IH]; intros H; [reflexivity|]. rewrite det_last by (intros; apply H; lia). rewrite IH by (intros; apply H; lia). cbn [rprod]. ring.
Qed.
(** zero determinant and kernel *)
Lemma det_kernel n A x : det n A <> 0 -> (forall i, (i < n)%nat -> rsum n (fun q => A i q * x q) = 0) -> forall j, (j < n)%nat -> x j = 0.
Proof.
  intros Hd Hx j Hj. assert (C := m_cramer n n (det n) (det_mla n) A j x Hj). rewrite (m_zero n n (det n) (det_mla n) _ j Hj) in C.
  - symmetry in C. apply Rmult_integral in C. destruct C; [assumption|contradiction].
  - intros i Hi. unfold setcol. rewrite Nat.eqb_refl. apply Hx, Hi.
Qed.
