(** nullspace.py and LUCP: right only for permutations of order two. *)
From Coq Require Import Reals List Arith Lia Lra Bool Permutation.
From Verif Require Import Base LASpec BordModel BordSpec LABase BordProofs DetSpec DetMath LinModel LinProofs SwapSpec Swaps QRModel QRSpec QRProofs QRDet CholProofs CholDet BrdModel BrdSpec BrdProofs BrdMore.
Import ListNotations.
Open Scope R_scope.

(** a unique largest entry is the pivot *)
Lemma pivot_unique n m k s r c : (k <= r < n)%nat -> (k <= c < m)%nat ->
  (forall i j, (k <= i < n)%nat -> (k <= j < m)%nat -> (i, j) <> (r, c) -> Rabs (luA s i j) < Rabs (luA s r c)) ->
  lu_pivot n m k s = mkLu (fun i => swapf (swapf (luA s) k r i) k c) (swapf (lup s) k r) (swapf (luq s) k c).
Proof.
  intros Hr Hc H. unfold lu_pivot. cbv zeta. set (ri := fun j => LinModel.argmax (fun i => Rabs (luA s i j)) k n).
  assert (Hri : forall j, (k <= ri j < n)%nat /\ forall i, (k <= i < n)%nat -> Rabs (luA s i j) <= Rabs (luA s (ri j) j)).
  { intros j. unfold ri. assert (Q := LinProofs.argmax_spec (fun i => Rabs (luA s i j)) k n ltac:(lia)). exact Q. }
  assert (Er : ri c = r).
  { destruct (Hri c) as [B M]. destruct (Nat.eq_dec (ri c) r) as [E|E]; [exact E|]. specialize (M r Hr). specialize (H (ri c) c B Hc ltac:(congruence)). lra. }
  assert (Ec : LinModel.argmax (fun j => Rabs (luA s (ri j) j)) k m = c).
  { assert (Q := LinProofs.argmax_spec (fun j => Rabs (luA s (ri j) j)) k m ltac:(lia)). cbv beta in Q. set (q := LinModel.argmax _ k m) in *. destruct Q as [B M]. destruct (Nat.eq_dec q c) as [E|E]; [exact E|].
    specialize (M c Hc). rewrite Er in M. destruct (Hri q) as [B2 _]. specialize (H (ri q) q B2 B ltac:(congruence)). lra. }
  change (fun j => Rabs (luA s (LinModel.argmax (fun i => Rabs (luA s i j)) k n) j)) with (fun j => Rabs (luA s (ri j) j)). rewrite Ec. change (LinModel.argmax (fun i => Rabs (luA s i c)) k n) with (ri c). rewrite Er. reflexivity.
Qed.
Lemma bij_perm n q : bij n q -> Permutation (seq 0 n) (map q (seq 0 n)).
Proof.
  intros [B I]. assert (E : forall k, (k < n)%nat -> nth k (map q (seq 0 n)) 0%nat = q k).
  { intros k Hk. rewrite (nth_indep _ 0%nat (q 0%nat)) by (rewrite map_length, seq_length; exact Hk). rewrite map_nth, seq_nth by exact Hk. reflexivity. }
  apply perm_of_nth; [rewrite map_length, seq_length; reflexivity|intros k Hk; rewrite E by exact Hk; apply B, Hk|]. intros i j Hi Hj Eij. rewrite !E in Eij by assumption. apply I; assumption.
Qed.
Lemma nth_mapseq n (q : nat -> nat) k : (k < n)%nat -> nth k (map q (seq 0 n)) 0%nat = q k.
Proof. intros Hk. rewrite (nth_indep _ 0%nat (q 0%nat)) by (rewrite map_length, seq_length; exact Hk). rewrite map_nth, seq_nth by exact Hk. reflexivity. Qed.
Lemma null_right_involutive m tol A : let n := S m in 0 < tol -> let '(F, stop) := lucp n n tol A in
  stop = None -> (forall i, (i < m)%nat -> luU F i i <> 0) -> luU F m m = 0 -> (forall j, (j < n)%nat -> resq F (resq F j) = j) ->
  let v := null_right n F in length v = n /\ dotp v v = 1 /\ mv n n A v = zeros n.
Proof.
  intros n Ht. assert (Q := lucp_correct n n tol A Ht). destruct (lucp n n tol A) as [F stop]. cbv zeta in Q. destruct Q as [Bp [Bq [_ [_ [UU [E _]]]]]]. intros Hs Hd Hz Hi. specialize (E Hs). cbv zeta.
  assert (Pq := bij_perm n _ Bq). assert (Pp := bij_perm n _ Bp). unfold null_right. replace (n - 1)%nat with m by (unfold n; lia). set (U := luU F) in *. set (y := usolve m U (fun i => U i m)). set (ph := y ++ [-1]).
  assert (Ly : length y = m) by apply usolve_length. assert (Lph : length ph = n) by (unfold ph, n; rewrite app_length; cbn; lia). set (Q := map (resq F) (seq 0 n)) in *. assert (LQ : length Q = n) by (unfold Q; rewrite map_length, seq_length; reflexivity).
  set (x := gather ph Q). assert (Lx : length x = n) by (unfold x; rewrite gather_length; exact LQ).
  assert (Ex : forall k, (k < n)%nat -> nth k x 0 = nth (resq F k) ph 0). { intros k Hk. unfold x. rewrite nth_gather by congruence. unfold Q. rewrite nth_mapseq by exact Hk. reflexivity. }
  assert (EU : forall l, (l < n)%nat -> rsum n (fun k => U l k * nth k ph 0) = 0).
  { intros l Hl. unfold n at 1. cbn [rsum]. unfold ph. rewrite nth_snoc, Ly, Nat.ltb_irrefl, Nat.eqb_refl. rewrite (rsum_ext m _ (fun k => U l k * nth k y 0)) by (intros k Hk; rewrite nth_snoc, Ly; destruct (Nat.ltb_spec k m); [reflexivity|lia]).
    destruct (Nat.eq_dec l m) as [->|Hne].
    - rewrite Hz, rsum_zero; [ring|]. intros k Hk. rewrite UU by exact Hk. ring.
    - unfold y. rewrite (usolve_correct m U) by (try exact Hd; try (intros a b Ha Hb; apply UU; exact Hb); unfold n in Hl; lia). ring. }
  assert (Ax : mv n n A x = zeros n).
  { apply vext; [rewrite mv_length, zeros_length; reflexivity|]. rewrite mv_length. intros i' Hi'. rewrite nth_zeros.
    assert (I : In i' (map (resp F) (seq 0 n))) by (apply (Permutation_in _ Pp), in_seq; lia). apply in_map_iff in I. destruct I as [i [<- Hi2]]. apply in_seq in Hi2. rewrite mv_nth by exact Hi'.
    rewrite (rsum_perm n Q Pq). rewrite (rsum_ext n _ (fun k => rsum n (fun l => luL F i l * (U l k * nth k ph 0)))).
    - rewrite rsum_swap, rsum_zero; [reflexivity|]. intros l Hl. rewrite rsum_scal, EU by exact Hl. ring.
    - intros k Hk. unfold Q. rewrite nth_mapseq by exact Hk. destruct Bq as [B1 _]. rewrite Ex by (apply B1, Hk). rewrite Hi by exact Hk. rewrite E by (try exact Hk; lia). rewrite Nat.min_id. rewrite <- rsum_scal_r. apply rsum_ext. intros. ring. }
  fold x. split; [rewrite vscal_length; exact Lx|]. split; [|rewrite mv_vscal, Ax; apply vext; [rewrite vscal_length; reflexivity|]; intros i _; rewrite nth_vscal, nth_zeros; ring].
  rewrite dotp_vscal_l, dotp_vscal_r. assert (Nx := dotp_pos x). assert (Hx : dotp x x <> 0).
  { intros Z. apply dotp_zero in Z. assert (In m (map (resq F) (seq 0 n))) as I by (apply (Permutation_in _ Pq), in_seq; unfold n; lia). apply in_map_iff in I. destruct I as [k [Ek Hk]]. apply in_seq in Hk.
    assert (W := Ex k ltac:(lia)). rewrite Ek, Z, nth_zeros in W. unfold ph in W. rewrite nth_snoc, Ly, Nat.ltb_irrefl, Nat.eqb_refl in W. lra. }
  assert (Hsq : sqrt (dotp x x) * sqrt (dotp x x) = dotp x x) by (apply sqrt_sqrt; lra). assert (0 < sqrt (dotp x x)) by (apply sqrt_lt_R0; lra).
  transitivity (dotp x x / (sqrt (dotp x x) * sqrt (dotp x x))); [field; lra|]. rewrite Hsq. field. exact Hx.
Qed.
(** a matrix whose columns are exchanged in a cycle of three *)
Definition cyc (a : R) : rmat := fun i j => match i, j with 0%nat, 1%nat => 4 | 1%nat, 2%nat => 2 | 2%nat, 0%nat => a | _, _ => 0 end.
Ltac rabs := unfold Rabs; repeat match goal with |- context [Rcase_abs ?x] => destruct (Rcase_abs x) end; try lra.
Lemma cyc_lucp a : 0 <= a <= 1 -> exists s, lu_loop 3 3 (/ 10 ^ 8) 0 2 (mkLu (cyc a) (fun i => i) (fun j => j)) = (s, None) /\
  (forall i j, (i < 3)%nat -> (j < 3)%nat -> luA s i j = if Nat.eqb i j then match i with 0%nat => 4 | 1%nat => 2 | _ => a end else 0) /\
  (forall i, (i < 3)%nat -> lup s i = i) /\ luq s 0%nat = 1%nat /\ luq s 1%nat = 2%nat /\ luq s 2%nat = 0%nat.
Proof.
  intros Ha. assert (Ht : / 10 ^ 8 <= 1) by (apply Rmult_le_reg_l with (10 ^ 8); [lra|]; rewrite Rinv_r; lra). set (s0 := mkLu (cyc a) (fun i => i) (fun j => j)).
  assert (P0 := pivot_unique 3 3 0 s0 0 1 ltac:(lia) ltac:(lia)). cbn [lu_loop]. rewrite P0.
  2:{ intros [|[|[|i]]] [|[|[|j]]] Hi Hj Hne; try lia; try congruence; cbn; rabs. }
  match goal with |- context [lu_elim 3 3 0 ?t] => set (s1 := t) end. destruct (Rle_dec (/ 10 ^ 8) (Rabs (luA s1 0%nat 0%nat))) as [_|N]; [|exfalso; apply N; cbn -[pow]; rabs].
  set (s2 := lu_elim 3 3 0 s1).
  assert (P1 := pivot_unique 3 3 1 s2 1 2 ltac:(lia) ltac:(lia)). rewrite P1.
  2:{ intros [|[|[|i]]] [|[|[|j]]] Hi Hj Hne; try lia; try congruence; cbn; rabs. }
  match goal with |- context [lu_elim 3 3 1 ?t] => set (s3 := t) end. destruct (Rle_dec (/ 10 ^ 8) (Rabs (luA s3 1%nat 1%nat))) as [_|N]; [|exfalso; apply N; cbn -[pow]; rabs].
  eexists. split; [reflexivity|]. split; [|repeat split; try reflexivity].
  - intros [|[|[|i]]] [|[|[|j]]] Hi Hj; try lia; cbn; field.
  - intros [|[|[|i]]] Hi; try lia; reflexivity.
Qed.
Lemma cyc_F a : 0 <= a <= 1 -> exists F, lucp 3 3 (/ 10 ^ 8) (cyc a) = (F, None) /\
  (forall i j, (i < 3)%nat -> (j < 3)%nat -> luL F i j = if Nat.eqb i j then 1 else 0) /\
  (forall i j, (i < 3)%nat -> (j < 3)%nat -> luU F i j = if Nat.eqb i j then match i with 0%nat => 4 | 1%nat => 2 | _ => a end else 0) /\
  map (resp F) (seq 0 3) = [0; 1; 2]%nat /\ map (resq F) (seq 0 3) = [1; 2; 0]%nat.
Proof.
  intros Ha. destruct (cyc_lucp a Ha) as [s [E [EA [Ep [Q0 [Q1 Q2]]]]]]. unfold lucp. change (Nat.min (3 - 1) 3) with 2%nat. rewrite E. eexists. split; [reflexivity|]. cbn [luL luU resp resq]. split; [|split; [|split]].
  - intros i j Hi Hj. destruct (Nat.ltb_spec j i) as [H|H]; [|reflexivity]. rewrite EA by assumption. destruct (Nat.eqb_spec i j); [lia|reflexivity].
  - intros i j Hi Hj. rewrite EA by assumption. destruct (Nat.leb_spec i j) as [H|H]; [reflexivity|]. destruct (Nat.eqb_spec i j); [lia|reflexivity].
  - cbn. rewrite !Ep by lia. reflexivity.
  - cbn. rewrite Q0, Q1, Q2. reflexivity.
Qed.
(** right_null_vector of (0 4 0; 0 0 2; 0 0 0): the kernel is spanned by e_0, the answer is -e_1 *)
Lemma null_right_wrong : right_null_vector 3 (cyc 0) = [0; -1; 0] /\ mv 3 3 (cyc 0) [0; -1; 0] = [-4; 0; 0] /\ mv 3 3 (cyc 0) [1; 0; 0] = [0; 0; 0].
Proof.
  split; [|split; unfold mv, mk; cbn; repeat (apply f_equal2; [ring|]); reflexivity]. destruct (cyc_F 0 ltac:(lra)) as [F [E [_ [EU [_ EQ]]]]]. unfold right_null_vector. rewrite E. cbn [fst]. unfold null_right. rewrite EQ.
  cbn [usolve Nat.sub app gather map nth]. rewrite !EU by lia. cbn [Nat.eqb]. replace (0 - 0 * (0 / 2)) with 0 by field.
  match goal with |- vscal _ ?l = _ => assert (D : l = [0; -1; 0]) by (repeat (apply f_equal2; [field|]); reflexivity); rewrite D end.
  assert (N : dotp [0; -1; 0] [0; -1; 0] = 1) by (unfold dotp; cbn; ring). rewrite N, sqrt_1. unfold vscal. cbn. repeat (apply f_equal2; [field|]); reflexivity.
Qed.
(** brd_null_simp for A = (0 4 0; 0 0 2; 1 0 0) bordered by b = c = e_0, d = 1 *)
Lemma brd_null_simp_wrong : exists x, brd_null_simp 3 (cyc 1) [1; 0; 0] [1; 0; 0] 1 (/ 10 ^ 8) = Some x /\
  nonsingular 4 (bord 3 (cyc 1) [1; 0; 0] [1; 0; 0] 1) /\ ~ solves 4 (bord 3 (cyc 1) [1; 0; 0] [1; 0; 0] 1) x [0; 0; 0; 1].
Proof.
  destruct (cyc_F 1 ltac:(lra)) as [F [E [EL [EU [EP EQ]]]]]. exists [0; 0; -(1 / 4); 1]. split; [|split].
  - unfold brd_null_simp. rewrite E. cbn [fst]. assert (U22 := EU 2%nat 2%nat ltac:(lia) ltac:(lia)). cbn in U22. change (3 - 1)%nat with 2%nat. rewrite U22. assert (/ 10 ^ 8 <= 1) by (apply Rmult_le_reg_l with (10 ^ 8); [lra|]; rewrite Rinv_r; lra).
    destruct (Rlt_dec (Rabs 1) (/ 10 ^ 8)) as [L|_]; [rewrite Rabs_R1 in L; lra|]. f_equal. unfold solve_nonsing, LUCP, lsolve. cbn [o_n o_L o_U o_r o_c]. rewrite EP, EQ.
    unfold scatter, scatter_at, setnth, zeros, mk, transp. cbn -[Rdiv]. rewrite !EL, !EU by lia. cbn -[Rdiv]. unfold dotp. cbn -[Rdiv]. repeat (apply f_equal2; [field; lra|]). reflexivity.
  - intros x Lx H. do 4 (destruct x as [|? x]; try discriminate). destruct x; [|discriminate]. unfold mv, mk, bord, zeros, mk in *. cbn in H. assert (H0 := f_equal (fun l => nth 0 l 0) H). assert (H1 := f_equal (fun l => nth 1 l 0) H). assert (H2 := f_equal (fun l => nth 2 l 0) H). assert (H3 := f_equal (fun l => nth 3 l 0) H). cbn in *.
    repeat (apply f_equal2; [lra|]). reflexivity.
  - intros [_ H]. assert (H0 := f_equal (fun l => nth 0 l 0) H). unfold mv, mk, bord in H0. cbn in H0. lra.
Qed.
(** the caller's float array is overwritten *)
Lemma lucp_overwrites : lucp_caller 3 3 (/ 10 ^ 8) (cyc 0) 0%nat 0%nat = 4 /\ cyc 0 0%nat 0%nat = 0.
Proof.
  split; [|reflexivity]. destruct (cyc_lucp 0 ltac:(lra)) as [s [E [EA _]]]. unfold lucp_caller. change (Nat.min (3 - 1) 3) with 2%nat. rewrite E. cbn [fst]. apply (EA 0%nat 0%nat); lia.
Qed.
(** logdet: the column permutation is ignored *)
Lemma logdet_wrong : exists A L U pr pc, splu_fact 2 A L U pr pc /\ (forall i, (i < 2)%nat -> U i i <> 0) /\ det 2 A = -1 /\ logdet_superlu (lu_of 2 L U pr pc) = Some (1, 0).
Proof.
  exists (fun i j => if Nat.eqb i j then 0 else 1), (fun i j => if Nat.eqb i j then 1 else 0), (fun i j => if Nat.eqb i j then 1 else 0), [0; 1]%nat, [1; 0]%nat.
  split; [|split; [intros [|[|i]] Hi; cbn; lra || lia|split; [cbn; unfold dropcol; cbn; ring|]]].
  - split; [intros i j _ Hj; destruct (Nat.eqb_spec i j); [lia|reflexivity]|]. split; [intros i _; rewrite Nat.eqb_refl; reflexivity|]. split; [intros i j _ Hj; destruct (Nat.eqb_spec i j); [lia|reflexivity]|].
    split; [reflexivity|]. split; [apply perm_swap|]. intros [|[|i]] [|[|k]] Hi Hk; try lia; cbn; ring.
  - unfold logdet_superlu. cbn. unfold sgn. destruct (Rlt_dec 1 0); [lra|]. destruct (Rlt_dec 0 1); [|lra]. rewrite Rabs_R1, ln_1. f_equal. f_equal; ring.
Qed.
Lemma brd_solve_thm n A L U pr pc b c d f : splu_fact n A L U pr pc -> (forall i, (i < n)%nat -> U i i <> 0) -> length b = n -> length c = n -> length f = S n ->
  nonsingular (S n) (bord n A b c d) -> solves (S n) (bord n A b c d) (brd_solve (lu_of n L U pr pc) b c d f) f.
Proof. intros HF Hd Lb Lc Lf. apply (brd_solve_ok n A L U pr pc HF Hd b c d Lb Lc f Lf). Qed.
Lemma brd_null_thm n A L U pr pc b c d : splu_fact n A L U pr pc -> (forall i, (i < n)%nat -> U i i <> 0) -> length b = n -> length c = n ->
  nonsingular (S n) (bord n A b c d) -> let '(v, w) := solve_null_nonsing (lu_of n L U pr pc) b c d in
    solves (S n) (bord n A b c d) v (zeros n ++ [1]) /\ solves (S n) (transp (bord n A b c d)) w (zeros n ++ [1]).
Proof. intros HF Hd Lb Lc. apply (solve_null_nonsing_ok n A L U pr pc HF Hd b c d Lb Lc). Qed.
Lemma bm_nonsing_thm n A h Rm C b c d r : qr_fact n n A h Rm C -> (forall i, (i < n)%nat -> Rm i i <> 0) -> length b = n -> length c = n -> length r = S n ->
  nonsingular (S n) (bord n A b c d) -> let s := bm_new n h Rm C b c d in
  solves (S n) (bord n A b c d) (bm_solve_nonsingular s r) r /\ solves (S n) (bord n A b c d) (bm_solve_null_nonsingular s) (zeros n ++ [1]).
Proof. intros HF Hd Lb Lc Lr HN. apply (bm_nonsing_ok n A h Rm C HF Hd b c d Lb Lc r Lr HN). Qed.
Lemma brd_null_simp_involutive n A b c d eps : let '(F, stop) := lucp n n (/ 10 ^ 8) A in
  stop = None -> (forall i, (i < n)%nat -> luU F i i <> 0) -> (forall i, (i < n)%nat -> resp F (resp F i) = i) -> (forall j, (j < n)%nat -> resq F (resq F j) = j) ->
  length b = n -> length c = n -> nonsingular (S n) (bord n A b c d) -> eps <= Rabs (luU F (n - 1)%nat (n - 1)%nat) ->
  exists x, brd_null_simp n A b c d eps = Some x /\ solves (S n) (bord n A b c d) x (zeros n ++ [1]).
Proof.
  assert (Ht : 0 < / 10 ^ 8) by (apply Rinv_0_lt_compat; apply pow_lt; lra). assert (Q := lucp_correct n n (/ 10 ^ 8) A Ht). unfold brd_null_simp. destruct (lucp n n (/ 10 ^ 8) A) as [F stop]. cbv zeta in Q. cbn [fst].
  destruct Q as [Bp [Bq [LL [L1 [UU [E _]]]]]]. intros Hs Hd Ip Iq Lb Lc HN He. specialize (E Hs).
  destruct (Rlt_dec _ eps) as [N|_]; [lra|]. eexists. split; [reflexivity|].
  change (LUCP n F) with (lu_of n (luL F) (luU F) (map (resp F) (seq 0 n)) (map (resq F) (seq 0 n))). apply solve_nonsing_ok; try assumption.
  split; [intros i j _ Hj; apply LL, Hj|]. split; [intros i _; apply L1|]. split; [intros i j _ Hj; apply UU, Hj|]. split; [apply bij_perm, Bp|]. split; [apply bij_perm, Bq|].
  intros i k Hi Hk. rewrite !nth_mapseq by assumption. destruct Bp as [Bp _], Bq as [Bq _]. rewrite <- (Ip i Hi) at 1. rewrite <- (Iq k Hk) at 1. rewrite E by (try apply Bp; try apply Bq; assumption). rewrite Nat.min_id. reflexivity.
Qed.
