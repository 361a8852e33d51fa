(** Correctness of the QR solver. *)
From Coq Require Import Reals List Arith Lia Lra Bool Permutation.
From Verif Require Import Base LASpec BordModel BordSpec LABase BordProofs DetSpec DetMath LinModel SwapSpec Swaps QRModel QRSpec.
Import ListNotations.
Open Scope R_scope.

(** ** permutations *)
Lemma index_of_nth C j d : NoDup C -> (j < length C)%nat -> index_of (nth j C d) C = j.
Proof.
  revert j. induction C as [|x C IH]; intros j ND Hj; [cbn in Hj; lia|]. inversion ND; subst. destruct j as [|j]; cbn.
  - rewrite Nat.eqb_refl. reflexivity.
  - destruct (Nat.eqb_spec x (nth j C d)) as [E|_].
    + exfalso. apply H1. rewrite E. apply nth_In. cbn in Hj. lia.
    + f_equal. apply IH; [assumption|cbn in Hj; lia].
Qed.
Lemma index_of_In C c d : In c C -> (index_of c C < length C)%nat /\ nth (index_of c C) C d = c.
Proof.
  induction C as [|x C IH]; intros H; [destruct H|]. cbn. destruct (Nat.eqb_spec x c) as [->|Hne]; [split; [lia|reflexivity]|].
  destruct H as [->|H]; [contradiction|]. destruct (IH H). split; [lia|assumption].
Qed.
Section perm.
  Variables (n : nat) (C : list nat).
  Hypothesis HC : Permutation (seq 0 n) C.
  Lemma perm_len : length C = n. Proof. rewrite <- (Permutation_length HC), seq_length. reflexivity. Qed.
  Lemma perm_nd : NoDup C. Proof. apply (Permutation_NoDup HC), seq_NoDup. Qed.
  Lemma perm_lt j : (j < n)%nat -> (nth j C 0 < n)%nat.
  Proof.
    intros Hj. assert (I : In (nth j C 0%nat) C) by (apply nth_In; rewrite perm_len; exact Hj). apply (Permutation_in _ (Permutation_sym HC)) in I. apply in_seq in I. lia.
  Qed.
  Lemma argsort_len : length (argsort C) = n. Proof. unfold argsort. rewrite map_length, seq_length. apply perm_len. Qed.
  Lemma argsort_nth c : (c < n)%nat -> nth c (argsort C) 0%nat = index_of c C.
  Proof.
    intros Hc. unfold argsort. rewrite (nth_indep _ 0%nat (index_of 0 C)) by (rewrite map_length, seq_length, perm_len; exact Hc).
    rewrite (map_nth (fun c => index_of c C)). rewrite seq_nth by (rewrite perm_len; exact Hc). reflexivity.
  Qed.
  Lemma argsort_C j : (j < n)%nat -> nth (nth j C 0%nat) (argsort C) 0%nat = j.
  Proof. intros Hj. rewrite argsort_nth by (apply perm_lt, Hj). apply index_of_nth; [apply perm_nd|rewrite perm_len; exact Hj]. Qed.
  Lemma C_argsort c : (c < n)%nat -> (nth c (argsort C) 0 < n)%nat /\ nth (nth c (argsort C) 0%nat) C 0%nat = c.
  Proof.
    intros Hc. rewrite argsort_nth by exact Hc. destruct (index_of_In C c 0%nat) as [L E].
    - apply (Permutation_in _ HC). apply in_seq. lia.
    - rewrite perm_len in L. split; assumption.
  Qed.
  Definition lsum (l : list nat) (f : nat -> R) : R := fold_right (fun k a => f k + a) 0 l.
  Lemma lsum_perm l l' f : Permutation l l' -> lsum l f = lsum l' f.
  Proof. intros P. induction P; [reflexivity|change (f x + lsum l f = f x + lsum l' f); rewrite IHP; reflexivity|unfold lsum; cbn; lra|congruence]. Qed.
  Lemma lsum_app l l' f : lsum (l ++ l') f = lsum l f + lsum l' f.
  Proof. induction l as [|x l IH]; [unfold lsum; cbn; ring|]. change (f x + lsum (l ++ l') f = f x + lsum l f + lsum l' f). rewrite IH. ring. Qed.
  Lemma lsum_seq m f : lsum (seq 0 m) f = rsum m f.
  Proof. induction m as [|m IH]; [reflexivity|]. rewrite seq_S, lsum_app, IH. cbn. ring. Qed.
  Lemma lsum_nth l f : lsum l f = rsum (length l) (fun k => f (nth k l 0%nat)).
  Proof. induction l as [|x l IH]; [reflexivity|]. change (lsum (x :: l) f) with (f x + lsum l f). cbn [length]. rewrite rsum_S_l. cbn [nth]. rewrite IH. reflexivity. Qed.
  Lemma rsum_perm f : rsum n f = rsum n (fun k => f (nth k C 0%nat)).
  Proof. rewrite <- lsum_seq, (lsum_perm _ C f HC), lsum_nth, perm_len. reflexivity. Qed.
  Lemma gather_argsort_sum (g : nat -> R) x : rsum n (fun j => g j * nth j (gather x (argsort C)) 0) = rsum n (fun k => g (nth k C 0%nat) * nth k x 0).
  Proof.
    rewrite rsum_perm. apply rsum_ext. intros k Hk. f_equal. unfold gather.
    rewrite (nth_indep _ 0 (nth 0 x 0)) by (rewrite map_length, argsort_len; apply perm_lt, Hk). rewrite (map_nth (fun p => nth p x 0)). f_equal. apply argsort_C, Hk.
  Qed.
  Lemma gather_length (x : list R) idx : length (gather x idx) = length idx. Proof. apply map_length. Qed.
  Lemma nth_gather x idx i : (i < length idx)%nat -> nth i (gather x idx) 0 = nth (nth i idx 0%nat) x 0.
  Proof. intros Hi. unfold gather. rewrite (nth_indep _ 0 (nth 0 x 0)) by (rewrite map_length; exact Hi). apply (map_nth (fun p => nth p x 0)). Qed.
End perm.

(** ** reflectors *)
Section refl.
  Variable n : nat.
  Lemma hstep_length h x : reflector n h -> length x = n -> length (hstep h x) = n.
  Proof. intros [Lv _] Lx. unfold hstep. rewrite vsub_length; [exact Lx|]. rewrite vscal_length. congruence. Qed.
  Lemma hstep_nth h x i : reflector n h -> length x = n -> nth i (hstep h x) 0 = nth i x 0 - fst h * dotp (snd h) x * nth i (snd h) 0.
  Proof. intros [Lv _] Lx. unfold hstep. rewrite nth_vsub by (rewrite vscal_length; congruence). rewrite nth_vscal. reflexivity. Qed.
  Lemma hstep_add h x y : reflector n h -> length x = n -> length y = n -> hstep h (vadd x y) = vadd (hstep h x) (hstep h y).
  Proof.
    intros Hh Lx Ly. assert (La : length (vadd x y) = n) by (rewrite vadd_length; congruence).
    apply vext; [rewrite vadd_length; rewrite ?hstep_length; auto|]. intros i _. rewrite hstep_nth by assumption. rewrite !nth_vadd by (rewrite ?hstep_length; congruence || auto).
    rewrite !hstep_nth by assumption. rewrite dotp_vadd_r by congruence. ring.
  Qed.
  Lemma hstep_scal h k x : reflector n h -> length x = n -> hstep h (vscal k x) = vscal k (hstep h x).
  Proof.
    intros Hh Lx. assert (La : length (vscal k x) = n) by (rewrite vscal_length; exact Lx).
    apply vext; [rewrite vscal_length, !hstep_length; auto|]. intros i _. rewrite hstep_nth by assumption. rewrite !nth_vscal, hstep_nth by assumption. rewrite dotp_vscal_r. ring.
  Qed.
  Lemma hstep_invol h x : reflector n h -> length x = n -> hstep h (hstep h x) = x.
  Proof.
    intros Hh Lx. assert (Lh := hstep_length h x Hh Lx). apply vext; [rewrite hstep_length; auto|]. intros i _. rewrite !hstep_nth by assumption.
    assert (E : dotp (snd h) (hstep h x) = dotp (snd h) x - fst h * dotp (snd h) x * dotp (snd h) (snd h)).
    { unfold hstep at 1. destruct Hh as [Lv _]. rewrite dotp_vsub_r by (rewrite vscal_length; congruence). rewrite dotp_vscal_r. ring. }
    rewrite E. destruct Hh as [_ [Z|Z]]; [rewrite Z; ring|].
    replace (fst h * (dotp (snd h) x - fst h * dotp (snd h) x * dotp (snd h) (snd h))) with (fst h * dotp (snd h) x * (1 - fst h * dotp (snd h) (snd h))) by ring. rewrite Z. ring.
  Qed.
  Lemma hstep_sym h x y : reflector n h -> length x = n -> length y = n -> dotp (hstep h x) y = dotp x (hstep h y).
  Proof.
    intros [Lv _] Lx Ly. unfold hstep. rewrite dotp_vsub_l by (rewrite vscal_length; congruence). rewrite dotp_vsub_r by (rewrite vscal_length; congruence).
    rewrite dotp_vscal_l, dotp_vscal_r. rewrite (dotp_comm x (snd h)) by congruence. ring.
  Qed.
  Lemma ormN_length hs x : Forall (reflector n) hs -> length x = n -> length (ormqr_N hs x) = n.
  Proof. intros F Lx. induction F; cbn; [exact Lx|]. apply hstep_length; assumption. Qed.
  Lemma ormT_length hs : forall x, Forall (reflector n) hs -> length x = n -> length (ormqr_T hs x) = n.
  Proof. induction hs as [|h hs IH]; intros x F Lx; cbn; [exact Lx|]. apply Forall_cons_iff in F; destruct F as [Hh F]. apply IH; [assumption|]. apply hstep_length; auto. Qed.
  Lemma ormN_add hs x y : Forall (reflector n) hs -> length x = n -> length y = n -> ormqr_N hs (vadd x y) = vadd (ormqr_N hs x) (ormqr_N hs y).
  Proof. intros F Lx Ly. induction F; cbn; [reflexivity|]. fold (ormqr_N l (vadd x y)) (ormqr_N l x) (ormqr_N l y). rewrite IHF. apply hstep_add; try assumption; apply ormN_length; assumption. Qed.
  Lemma ormN_scal hs k x : Forall (reflector n) hs -> length x = n -> ormqr_N hs (vscal k x) = vscal k (ormqr_N hs x).
  Proof. intros F Lx. induction F; cbn; [reflexivity|]. fold (ormqr_N l (vscal k x)) (ormqr_N l x). rewrite IHF. apply hstep_scal; try assumption; apply ormN_length; assumption. Qed.
  Lemma ormN_T hs : forall x, Forall (reflector n) hs -> length x = n -> ormqr_N hs (ormqr_T hs x) = x.
  Proof.
    induction hs as [|h hs IH]; intros x F Lx; [reflexivity|]. apply Forall_cons_iff in F; destruct F as [Hh F]. change (hstep h (ormqr_N hs (ormqr_T hs (hstep h x))) = x).
    rewrite IH by (try assumption; apply hstep_length; auto). apply hstep_invol; auto.
  Qed.
  Lemma ormT_N hs : forall x, Forall (reflector n) hs -> length x = n -> ormqr_T hs (ormqr_N hs x) = x.
  Proof.
    induction hs as [|h hs IH]; intros x F Lx; [reflexivity|]. apply Forall_cons_iff in F; destruct F as [Hh F]. change (ormqr_T hs (hstep h (hstep h (ormqr_N hs x))) = x).
    rewrite hstep_invol by (try assumption; apply ormN_length; auto). apply IH; assumption.
  Qed.
  Lemma orm_adj hs : forall x y, Forall (reflector n) hs -> length x = n -> length y = n -> dotp (ormqr_N hs x) y = dotp x (ormqr_T hs y).
  Proof.
    induction hs as [|h hs IH]; intros x y F Lx Ly; [reflexivity|]. apply Forall_cons_iff in F; destruct F as [Hh F]. change (dotp (hstep h (ormqr_N hs x)) y = dotp x (ormqr_T hs (hstep h y))).
    rewrite hstep_sym by (try assumption; try apply ormN_length; auto). apply IH; auto. apply hstep_length; auto.
  Qed.
  Lemma mv_snoc m M x : mv n (S m) M x = vadd (mv n m M x) (vscal (nth m x 0) (column n M m)).
  Proof.
    unfold column. apply vext; [rewrite vadd_length; rewrite ?vscal_length, ?mv_length, ?mk_length; reflexivity|]. rewrite mv_length. intros i Hi.
    rewrite nth_vadd by (rewrite vscal_length, mk_length, mv_length; reflexivity). rewrite nth_vscal, !mv_nth, nth_mk by exact Hi. cbn [rsum]. ring.
  Qed.
  Lemma orm_mv hs m M A x : Forall (reflector n) hs -> (forall j, (j < m)%nat -> column n A j = ormqr_N hs (column n M j)) -> mv n m A x = ormqr_N hs (mv n m M x).
  Proof.
    intros F H. induction m as [|m IH].
    - assert (Z : forall B, mv n 0 B x = vscal 0 (zeros n)) by (intros B; apply vext; [rewrite vscal_length, mv_length, zeros_length; reflexivity|]; rewrite mv_length; intros i Hi; rewrite mv_nth, nth_vscal by exact Hi; cbn; ring).
      rewrite !Z. rewrite ormN_scal by (try assumption; apply zeros_length). 
      apply vext; [rewrite !vscal_length, ormN_length; rewrite ?zeros_length; auto using zeros_length|]. intros i _. rewrite !nth_vscal. ring.
    - rewrite !mv_snoc. rewrite ormN_add by (try assumption; rewrite ?vscal_length, ?mv_length; try reflexivity; apply mk_length). rewrite ormN_scal by (try assumption; apply mk_length).
      rewrite <- H by lia. rewrite IH by (intros; apply H; lia). reflexivity.
  Qed.
End refl.

(** ** triangular systems *)
Lemma usolve_length n U : forall b, length (usolve n U b) = n.
Proof. induction n as [|n IH]; intros b; cbn; [reflexivity|]. rewrite app_length, IH. cbn. lia. Qed.
Lemma utsolve_length n U b : length (utsolve n U b) = n.
Proof. induction n as [|n IH]; cbn; [reflexivity|]. rewrite app_length, IH. cbn. lia. Qed.
Lemma diag_ok_spec n U : diag_ok n U = true <-> forall i, (i < n)%nat -> U i i <> 0.
Proof.
  unfold diag_ok. rewrite forallb_forall. split; intros H i Hi.
  - specialize (H i ltac:(apply in_seq; lia)). destruct (Req_EM_T (U i i) 0); [discriminate|assumption].
  - apply in_seq in Hi. destruct (Req_EM_T (U i i) 0) as [E|]; [|reflexivity]. exfalso. apply (H i ltac:(lia)), E.
Qed.
Definition upper (n : nat) (U : rmat) : Prop := forall i j, (i < n)%nat -> (j < i)%nat -> U i j = 0.
Lemma usolve_correct n U : upper n U -> (forall i, (i < n)%nat -> U i i <> 0) ->
  forall b i, (i < n)%nat -> rsum n (fun j => U i j * nth j (usolve n U b) 0) = b i.
Proof.
  induction n as [|n IH]; intros Hu Hd b i Hi; [lia|]. cbn [usolve]. set (xk := b n / U n n). set (b' := fun i => b i - U i n * xk).
  cbn [rsum]. assert (L := usolve_length n U b'). rewrite nth_snoc, L, Nat.ltb_irrefl, Nat.eqb_refl.
  rewrite (rsum_ext n _ (fun j => U i j * nth j (usolve n U b') 0)) by (intros j Hj; rewrite nth_snoc, L; destruct (Nat.ltb_spec j n); [reflexivity|lia]).
  destruct (Nat.eq_dec i n) as [->|Hne].
  - rewrite rsum_zero by (intros j Hj; rewrite Hu by lia; ring). unfold xk. field. apply Hd. lia.
  - rewrite IH; [unfold b'; ring|intros p q Hp Hq; apply Hu; lia|intros; apply Hd; lia|lia].
Qed.
Lemma utsolve_correct n U b : upper n U -> (forall i, (i < n)%nat -> U i i <> 0) ->
  forall i, (i < n)%nat -> rsum n (fun j => U j i * nth j (utsolve n U b) 0) = b i.
Proof.
  induction n as [|n IH]; intros Hu Hd i Hi; [lia|]. cbn [utsolve]. set (x := utsolve n U b) in *. assert (L : length x = n) by apply utsolve_length.
  cbn [rsum]. rewrite nth_snoc, L, Nat.ltb_irrefl, Nat.eqb_refl.
  rewrite (rsum_ext n _ (fun j => U j i * nth j x 0)) by (intros j Hj; rewrite nth_snoc, L; destruct (Nat.ltb_spec j n); [reflexivity|lia]).
  destruct (Nat.eq_dec i n) as [->|Hne].
  - field. apply Hd. lia.
  - rewrite IH; [rewrite (Hu n i) by lia; ring|intros p q Hp Hq; apply Hu; lia|intros; apply Hd; lia|lia].
Qed.
Lemma trtrs_N n U b : upper n U -> (forall i, (i < n)%nat -> U i i <> 0) -> length b = n -> solves n U (trtrs n U false b) b.
Proof.
  intros Hu Hd Lb. unfold trtrs. rewrite (proj2 (diag_ok_spec n U) Hd). split; [apply usolve_length|].
  apply vext; [rewrite mv_length; congruence|]. rewrite mv_length. intros i Hi. rewrite mv_nth by exact Hi. apply usolve_correct; assumption.
Qed.
Lemma trtrs_T n U b : upper n U -> (forall i, (i < n)%nat -> U i i <> 0) -> length b = n -> solves n (transp U) (trtrs n U true b) b.
Proof.
  intros Hu Hd Lb. unfold trtrs. rewrite (proj2 (diag_ok_spec n U) Hd). split; [apply utsolve_length|].
  apply vext; [rewrite mv_length; congruence|]. rewrite mv_length. intros i Hi. rewrite mv_nth by exact Hi. unfold transp. apply utsolve_correct; assumption.
Qed.

(** ** the solver *)
Lemma removelast_mk {T} n (f : nat -> T) : removelast (mk (S n) f) = mk n f.
Proof. unfold mk. rewrite seq_S, map_app. cbn [map]. apply removelast_last. Qed.
Lemma upper_S n U : upper (S n) U -> upper n U. Proof. intros H i j Hi Hj. apply H; lia. Qed.
Section qr.
  Variables (n : nat) (A : rmat) (h : list hh) (Rm : rmat) (C : list nat) (tol : R).
  Hypothesis HF : qr_fact n n A h Rm C.
  Let s := qr_new n n h Rm C tol.
  Lemma q_refl : Forall (reflector n) h. Proof. apply HF. Qed.
  Lemma q_upper : upper n Rm. Proof. intros i j. apply HF. Qed.
  Lemma q_perm : Permutation (seq 0 n) C. Proof. apply HF. Qed.
  Lemma qr_mv xhat : mv n n A (gather xhat (argsort C)) = ormqr_N h (mv n n Rm xhat).
  Proof.
    rewrite <- (orm_mv n h n Rm (fun i j => A i (nth j C 0%nat)) xhat q_refl); [|destruct HF as [_ [_ [_ [_ [_ H]]]]]; exact H].
    apply vext; [rewrite !mv_length; reflexivity|]. rewrite mv_length. intros i Hi. rewrite !mv_nth by exact Hi. apply (gather_argsort_sum n C q_perm).
  Qed.
  Lemma qr_mvt y : length y = n -> gather (mv n n (transp A) y) C = mv n n (transp Rm) (ormqr_T h y).
  Proof.
    intros Ly. assert (LC := perm_len n C q_perm). apply vext; [rewrite gather_length, mv_length; exact LC|]. rewrite gather_length, LC. intros k Hk.
    rewrite nth_gather by (rewrite LC; exact Hk). rewrite !mv_nth by (try apply (perm_lt n C q_perm); exact Hk). unfold transp.
    assert (E : forall (B : rmat) c z, rsum n (fun j => B j c * nth j z 0) = dotp (column n B c) z).
    { intros B c z. unfold dotp, column. rewrite mk_length. apply rsum_ext. intros j Hj. rewrite nth_mk by exact Hj. reflexivity. }
    rewrite !E. destruct HF as [_ [Hr [_ [_ [_ H]]]]]. rewrite H by exact Hk. apply (orm_adj n); [exact Hr|apply mk_length|exact Ly].
  Qed.
  Lemma gather_inj (x y : list R) : length x = n -> length y = n -> gather x C = gather y C -> x = y.
  Proof.
    intros Lx Ly E. apply vext; [congruence|]. rewrite Lx. intros c Hc. destruct (C_argsort n C q_perm c Hc) as [L1 L2].
    assert (Q := f_equal (fun l => nth (nth c (argsort C) 0%nat) l 0) E). cbn beta in Q. assert (LC := perm_len n C q_perm).
    rewrite !nth_gather in Q by (rewrite LC; exact L1). rewrite L2 in Q. exact Q.
  Qed.
  Lemma qr_solve_ok b : (forall i, (i < n)%nat -> Rm i i <> 0) -> length b = n -> solves n A (qr_solve s b) b.
  Proof.
    intros Hd Lb. unfold qr_solve. cbn [q_rows q_R q_h q_P s qr_new]. destruct (trtrs_N n Rm (ormqr_T h b) q_upper Hd) as [_ E]; [apply (ormT_length n); [exact q_refl|exact Lb]|].
    split; [rewrite gather_length; apply argsort_len, q_perm|]. rewrite qr_mv, E. apply (ormN_T n); [exact q_refl|exact Lb].
  Qed.
  Lemma qr_solve_adj_ok b : (forall i, (i < n)%nat -> Rm i i <> 0) -> length b = n -> solves n (transp A) (qr_solve_adj s b) b.
  Proof.
    intros Hd Lb. unfold qr_solve_adj. cbn [q_rows q_R q_h q_C s qr_new]. destruct (trtrs_T n Rm (gather b C) q_upper Hd) as [L E]; [rewrite gather_length; apply perm_len, q_perm|].
    assert (Ln := ormN_length n h (trtrs n Rm true (gather b C)) q_refl L). split; [exact Ln|].
    apply gather_inj; [apply mv_length|exact Lb|]. rewrite qr_mvt by exact Ln. rewrite (ormT_N n) by (try exact q_refl; exact L). exact E.
  Qed.
End qr.
Section qr_sing.
  Variables (m : nat) (A : rmat) (h : list hh) (Rm : rmat) (C : list nat) (tol : R).
  Let n := S m.
  Hypothesis HF : qr_fact n n A h Rm C.
  Hypothesis Hd : forall i, (i < m)%nat -> Rm i i <> 0.
  Let s := qr_new n n h Rm C tol.
  Let e := zeros m ++ [1].
  Lemma e_len : length e = n. Proof. unfold e. rewrite app_length, zeros_length. cbn. unfold n. lia. Qed.
  Lemma phi_img : mv n n Rm (trtrs m Rm false (mk m (fun i => Rm i m)) ++ [-1]) = vscal (- Rm m m) e.
  Proof.
    assert (Hu : upper n Rm) by (intros i j; apply HF). destruct (trtrs_N m Rm (mk m (fun i => Rm i m)) (upper_S m Rm Hu) Hd) as [L E]; [apply mk_length|].
    set (y := trtrs m Rm false (mk m (fun i => Rm i m))) in *. apply vext; [rewrite vscal_length, mv_length, e_len; reflexivity|]. rewrite mv_length. intros i Hi. rewrite mv_nth by exact Hi.
    rewrite nth_vscal. unfold n. cbn [rsum]. rewrite nth_snoc, L, Nat.ltb_irrefl, Nat.eqb_refl. unfold e. rewrite nth_snoc, zeros_length, nth_zeros.
    rewrite (rsum_ext m _ (fun j => Rm i j * nth j y 0)) by (intros j Hj; rewrite nth_snoc, L; destruct (Nat.ltb_spec j m); [reflexivity|lia]).
    destruct (Nat.ltb_spec i m) as [H|H].
    - assert (Q := f_equal (fun l => nth i l 0) E). cbn beta in Q. rewrite mv_nth, nth_mk in Q by exact H. rewrite Q. ring.
    - assert (i = m) by (unfold n in Hi; lia). subst i. rewrite Nat.eqb_refl. rewrite rsum_zero by (intros j Hj; rewrite Hu by (unfold n; lia); ring). ring.
  Qed.
  (** the right null vector: A phi = - R[n-1,n-1] psi; its entry C[n-1] is -1 *)
  Lemma qr_null_phi : let '(phi, psi) := qr_null s in length phi = n /\ nth (nth m C 0%nat) phi 0 = -1 /\ mv n n A phi = vscal (- Rm m m) psi.
  Proof.
    unfold qr_null. cbn [q_rows q_cols q_R q_h q_P s qr_new]. replace (n - 1)%nat with m by (unfold n; lia).
    assert (HP := q_perm n A h Rm C HF). assert (Lp := argsort_len n C HP).
    split; [rewrite gather_length; exact Lp|]. split.
    - rewrite nth_gather by (rewrite Lp; apply (perm_lt n C HP); unfold n; lia). rewrite (argsort_C n C HP) by (unfold n; lia).
      rewrite nth_snoc. assert (L : length (trtrs m Rm false (mk m (fun i => Rm i m))) = m) by (unfold trtrs; destruct (diag_ok m Rm); [apply usolve_length|apply mk_length]).
      rewrite L, Nat.ltb_irrefl, Nat.eqb_refl. reflexivity.
    - rewrite (qr_mv n A h Rm C HF), phi_img. apply (ormN_scal n); [apply HF|exact e_len].
  Qed.
  (** the left null vector: unit length, A^T psi = R[n-1,n-1] e_{C[n-1]} *)
  Lemma qr_null_psi : let '(phi, psi) := qr_null s in length psi = n /\ dotp psi psi = 1 /\
    forall k, (k < n)%nat -> nth (nth k C 0%nat) (mv n n (transp A) psi) 0 = if Nat.eqb k m then Rm m m else 0.
  Proof.
    unfold qr_null. cbn [q_rows q_cols q_R q_h q_P s qr_new]. replace (n - 1)%nat with m by (unfold n; lia). fold e.
    assert (Hr := q_refl n A h Rm C HF). assert (Ln := ormN_length n h e Hr e_len). split; [exact Ln|]. split.
    - rewrite (orm_adj n) by (try exact Hr; try exact e_len; exact Ln). rewrite (ormT_N n) by (try exact Hr; exact e_len). unfold e. rewrite dotp_app by reflexivity. rewrite dotp_zeros_r. ring.
    - intros k Hk. assert (HP := q_perm n A h Rm C HF). assert (LC := perm_len n C HP). rewrite <- (nth_gather _ C k) by (rewrite LC; exact Hk).
      rewrite (qr_mvt n A h Rm C HF) by exact Ln. rewrite (ormT_N n) by (try exact Hr; exact e_len). rewrite mv_nth by exact Hk. unfold transp, n. cbn [rsum]. unfold e.
      rewrite rsum_zero by (intros j Hj; rewrite nth_snoc, zeros_length, nth_zeros; destruct (Nat.ltb_spec j m); [ring|lia]).
      rewrite nth_snoc, zeros_length, Nat.ltb_irrefl, Nat.eqb_refl. destruct (Nat.eqb_spec k m); [subst; ring|]. rewrite (q_upper n A h Rm C HF m k) by (unfold n in *; lia). ring.
  Qed.
  (** particular solutions *)
  Lemma qr_part b : length b = n -> let r := dotp (snd (qr_null s)) b in
    (tol < Rabs r -> qr_particular s b = None) /\
    (Rabs r <= tol -> exists x, qr_particular s b = Some x /\ length x = n /\ mv n n A x = vsub b (vscal r (snd (qr_null s)))).
  Proof.
    intros Lb. cbv zeta. unfold qr_null. cbn [q_rows q_cols q_R q_h q_P s qr_new snd]. replace (n - 1)%nat with m by (unfold n; lia). fold e.
    assert (Hr := q_refl n A h Rm C HF). assert (HP := q_perm n A h Rm C HF). assert (Ln := ormN_length n h e Hr e_len). assert (Lc := ormT_length n h b Hr Lb).
    rewrite (orm_adj n) by (try exact Hr; try exact e_len; exact Lb).
    destruct (snoc_split (ormqr_T h b) m) as [f [g [Ec [Lf [E1 E2]]]]]; [exact Lc|].
    assert (Er : dotp e (ormqr_T h b) = g).
    { rewrite Ec. unfold e. rewrite dotp_app by (rewrite zeros_length; congruence). rewrite dotp_comm by (rewrite zeros_length; congruence). rewrite dotp_zeros_r. ring. }
    rewrite Er. unfold qr_particular. cbn [q_rows q_cols q_R q_h q_P q_tol s qr_new]. rewrite E1, E2. replace (n - 1)%nat with m by (unfold n; lia).
    destruct (Rlt_dec tol (Rabs g)) as [H|H]; [split; [reflexivity|intros; lra]|]. split; [intros; lra|]. intros _.
    eexists. split; [reflexivity|]. split; [rewrite gather_length; apply argsort_len, HP|]. rewrite (qr_mv n A h Rm C HF).
    assert (Hu : upper n Rm) by (intros i j; apply HF). destruct (trtrs_N m Rm f (upper_S m Rm Hu) Hd Lf) as [L E]. set (y := trtrs m Rm false f) in *.
    assert (E0 : mv n n Rm (y ++ [0]) = vadd (ormqr_T h b) (vscal (- g) e)).
    { apply vext; [rewrite vadd_length, mv_length by (rewrite vscal_length, e_len; congruence); congruence|]. rewrite mv_length. intros i Hi. rewrite mv_nth by exact Hi.
      rewrite nth_vadd by (rewrite vscal_length, e_len; congruence). rewrite nth_vscal, Ec. unfold e. rewrite !nth_snoc, Lf, zeros_length, nth_zeros. unfold n. cbn [rsum]. rewrite nth_snoc, L, Nat.ltb_irrefl, Nat.eqb_refl.
      rewrite (rsum_ext m _ (fun j => Rm i j * nth j y 0)) by (intros j Hj; rewrite nth_snoc, L; destruct (Nat.ltb_spec j m); [reflexivity|lia]).
      destruct (Nat.ltb_spec i m) as [H1|H1].
      - assert (Q := f_equal (fun l => nth i l 0) E). cbn beta in Q. rewrite mv_nth in Q by exact H1. rewrite Q. ring.
      - assert (i = m) by (unfold n in Hi; lia). subst i. rewrite Nat.eqb_refl. rewrite rsum_zero by (intros j Hj; rewrite Hu by (unfold n; lia); ring). ring. }
    rewrite E0. rewrite (ormN_add n) by (try exact Hr; try exact Lc; rewrite vscal_length; exact e_len). rewrite (ormN_scal n) by (try exact Hr; exact e_len). rewrite (ormN_T n) by assumption.
    apply vext; [rewrite vadd_length, vsub_length; rewrite ?vscal_length; congruence|]. intros i _. rewrite nth_vadd, nth_vsub, !nth_vscal by (rewrite vscal_length; congruence). ring.
  Qed.
  Lemma qr_part_adj b : length b = n ->
    let r := - dotp (fst (qr_null s)) b in
    (forall y, qr_particular_adj s b = Some y -> length y = n /\ Rabs r <= tol /\
       forall k, (k < n)%nat -> nth (nth k C 0%nat) (mv n n (transp A) y) 0 = nth (nth k C 0%nat) b 0 + (if Nat.eqb k m then - r else 0)) /\
    (qr_particular_adj s b = None <-> tol < Rabs r).
  Proof.
    intros Lb. cbv zeta. unfold qr_null. cbn [q_rows q_cols q_R q_h q_P s qr_new fst]. replace (n - 1)%nat with m by (unfold n; lia).
    assert (Hr := q_refl n A h Rm C HF). assert (HP := q_perm n A h Rm C HF). assert (LC := perm_len n C HP).
    assert (Hu : upper n Rm) by (intros i j; apply HF).
    destruct (trtrs_N m Rm (mk m (fun i => Rm i m)) (upper_S m Rm Hu) Hd) as [Lq Eq]; [apply mk_length|]. set (q := trtrs m Rm false (mk m (fun i => Rm i m))) in *.
    unfold qr_particular_adj. cbn [q_rows q_cols q_R q_h q_C q_tol s qr_new]. replace (n - 1)%nat with m by (unfold n; lia).
    destruct (snoc_split (gather b C) m) as [f [g [Eg [Lf [E1 E2]]]]]; [rewrite gather_length; exact LC|]. rewrite E1, E2.
    destruct (trtrs_T m Rm f (upper_S m Rm Hu) Hd Lf) as [Lx Ex]. set (x := trtrs m Rm true f) in *.
    (* S.x - g = - phi.b *)
    assert (Er : dotp (gather (q ++ [-1]) (argsort C)) b = dotp (mk m (fun i => Rm i m)) x - g).
    { unfold dotp at 1. rewrite gather_length, (argsort_len n C HP). rewrite (rsum_ext n _ (fun j => nth j b 0 * nth j (gather (q ++ [-1]) (argsort C)) 0)) by (intros; ring).
      rewrite (gather_argsort_sum n C HP (fun j => nth j b 0)). rewrite (rsum_ext n _ (fun k => nth k (q ++ [-1]) 0 * nth k (gather b C) 0)) by (intros k Hk; rewrite nth_gather by (rewrite LC; exact Hk); ring).
      assert (Ed : dotp (q ++ [-1]) (gather b C) = rsum n (fun k => nth k (q ++ [-1]) 0 * nth k (gather b C) 0)) by (unfold dotp; rewrite app_length, Lq; cbn [length]; replace (m + 1)%nat with n by (unfold n; lia); reflexivity).
      rewrite <- Ed, Eg, dotp_app by congruence. rewrite <- Ex. rewrite (dotp_comm q) by (rewrite mv_length; exact Lq). rewrite (dotp_mv m m (transp Rm) x q Lx Lq).
      assert (Et : mv m m (transp (transp Rm)) q = mk m (fun i => Rm i m)) by exact Eq. rewrite Et. rewrite dotp_comm by (rewrite mk_length; exact Lx). ring. }
    rewrite Er. set (dl := dotp (mk m (fun i => Rm i m)) x - g). rewrite Rabs_Ropp.
    destruct (Rlt_dec tol (Rabs dl)) as [H|H]; [split; [intros y Hy; discriminate|split; [intros _; exact H|reflexivity]]|].
    split; [|split; [discriminate|intros; lra]]. intros y Hy. injection Hy as <-.
    assert (L0 : length (x ++ [0]) = n) by (rewrite app_length, Lx; cbn; unfold n; lia). assert (Ln := ormN_length n h (x ++ [0]) Hr L0).
    split; [exact Ln|]. split; [lra|]. intros k Hk. rewrite <- !(nth_gather _ C k) by (rewrite LC; exact Hk). rewrite (qr_mvt n A h Rm C HF) by exact Ln. rewrite (ormT_N n) by assumption.
    rewrite mv_nth by exact Hk. unfold transp, n. cbn [rsum]. rewrite nth_snoc, Lx, Nat.ltb_irrefl, Nat.eqb_refl.
    rewrite (rsum_ext m _ (fun j => Rm j k * nth j x 0)) by (intros j Hj; rewrite nth_snoc, Lx; destruct (Nat.ltb_spec j m); [reflexivity|lia]).
    rewrite Eg, nth_snoc, Lf. destruct (Nat.ltb_spec k m) as [H1|H1]; destruct (Nat.eqb_spec k m) as [H2|H2]; try (unfold n in Hk; lia).
    - assert (Q := f_equal (fun l => nth k l 0) Ex). cbn beta in Q. rewrite mv_nth in Q by exact H1. unfold transp in Q. rewrite Q. ring.
    - subst k. unfold dl, dotp. rewrite mk_length. rewrite (rsum_ext m (fun i => nth i (mk m (fun i0 => Rm i0 m)) 0 * nth i x 0) (fun j => Rm j m * nth j x 0)) by (intros j Hj; rewrite nth_mk by exact Hj; reflexivity). ring.
  Qed.
End qr_sing.
