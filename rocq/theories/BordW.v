(** Correctness of BEMW (bemw_solve.py). *)
From Coq Require Import Reals List Arith Lia Lra Bool.
From Verif Require Import Base LASpec BordModel BordSpec LABase BordProofs.
Import ListNotations.
Open Scope R_scope.

Lemma firstn_len {A} (l tl : list A) n : length l = n -> firstn n (l ++ tl) = l.
Proof. intros <-. rewrite firstn_app, Nat.sub_diag, firstn_O, app_nil_r. apply firstn_all. Qed.
Lemma skipn_len {A} (l tl : list A) n : length l = n -> skipn n (l ++ tl) = tl.
Proof. intros <-. rewrite skipn_app, Nat.sub_diag, skipn_all. reflexivity. Qed.
Lemma set_at_app x tl k s : (k < length x)%nat -> set_at (x ++ tl) k s = set_at x k s ++ tl.
Proof.
  intros H. unfold set_at. rewrite firstn_app, skipn_app. replace (k - length x)%nat with 0%nat by lia. replace (S k - length x)%nat with 0%nat by lia. rewrite firstn_O, app_nil_r. cbn [skipn].
  rewrite <- app_assoc. reflexivity.
Qed.
Lemma set_at_length x k s : (k < length x)%nat -> length (set_at x k s) = length x.
Proof. intros H. unfold set_at. rewrite app_length. cbn [length]. rewrite firstn_length, skipn_length. lia. Qed.
Lemma set_at_snoc f h k s : length f = k -> set_at (f ++ [h]) k s = f ++ [s].
Proof. intros H. unfold set_at. rewrite (firstn_len f) by exact H. f_equal. f_equal. rewrite skipn_all2; [reflexivity|]. rewrite app_length. cbn. lia. Qed.
Lemma sub_prefix_app x tl a : (length a <= length x)%nat -> sub_prefix (x ++ tl) a = sub_prefix x a ++ tl.
Proof.
  intros H. unfold sub_prefix. rewrite firstn_app, skipn_app. replace (length a - length x)%nat with 0%nat by lia. rewrite firstn_O, app_nil_r. cbn [skipn]. rewrite <- app_assoc. reflexivity.
Qed.
Lemma sub_prefix_length x a : (length a <= length x)%nat -> length (sub_prefix x a) = length x.
Proof. intros H. unfold sub_prefix. rewrite app_length, vsub_length; rewrite firstn_length, ?skipn_length; lia. Qed.
Lemma sub_prefix_snoc f h a : length a = length f -> sub_prefix (f ++ [h]) a = vsub f a ++ [h].
Proof. intros H. unfold sub_prefix. rewrite firstn_len, skipn_len by (symmetry; exact H). reflexivity. Qed.

Section detail.
  Variables (core : list R -> list R) (n : nat) (rows cols : nat -> list R) (d : nat -> R)
            (vv ww : nat -> list R) (dl ep : nat -> R) (m : nat).
  Hypotheses (Hcore : forall f, length f = n -> length (core f) = n)
             (Hr : forall k, (k < m)%nat -> length (rows k) = (n + k)%nat) (Hc : forall k, (k < m)%nat -> length (cols k) = (n + k)%nat)
             (Hv : forall k, (k < m)%nat -> length (vv k) = (n + k)%nat).
  Notation down := (down n cols d ww ep).
  Notation up_step := (up_step n rows vv dl).
  Notation detail := (detail core n rows cols d vv ww dl ep).

  Lemma down_app j : forall x tl y, (j <= m)%nat -> length x = (n + j)%nat ->
    down j (x ++ tl) y = (fst (down j x y) ++ tl, snd (down j x y)) /\ length (fst (down j x y)) = (n + j)%nat.
  Proof.
    induction j as [|k IH]; intros x tl y Hj Lx; [split; [reflexivity|exact Lx]|]. cbn [BordModel.down].
    assert (E1 : nth (n + k) (x ++ tl) 0 = nth (n + k) x 0) by (apply app_nth1; lia).
    assert (E2 : firstn (n + k) (x ++ tl) = firstn (n + k) x). { rewrite firstn_app. replace (n + k - length x)%nat with 0%nat by lia. rewrite firstn_O, app_nil_r. reflexivity. }
    rewrite E1, E2. set (yk := _ / ep k). assert (La : length (vscal yk (cols k)) = (n + k)%nat) by (rewrite vscal_length; apply Hc; lia).
    rewrite sub_prefix_app by lia. set (x1 := sub_prefix x _). assert (L1 : length x1 = (n + S k)%nat) by (unfold x1; rewrite sub_prefix_length; lia).
    assert (E3 : nth (n + k) (x1 ++ tl) 0 = nth (n + k) x1 0) by (apply app_nth1; lia). rewrite E3, set_at_app by lia.
    set (x2 := set_at x1 _ _). assert (L2 : length x2 = (n + S k)%nat) by (unfold x2; rewrite set_at_length; lia).
    (* split the last entry of x2 *)
    replace (n + S k)%nat with (S (n + k)) in L2 by lia. destruct (snoc_split x2 (n + k) L2) as [f [h [Ef [Lf _]]]]. rewrite Ef. rewrite <- app_assoc.
    set (y' := fun i : nat => _). destruct (IH f ([h] ++ tl) y' ltac:(lia) Lf) as [A1 A2]. destruct (IH f [h] y' ltac:(lia) Lf) as [B1 _]. rewrite A1, B1. cbn [fst snd].
    split; [rewrite <- app_assoc; reflexivity|]. rewrite app_length. cbn [length]. lia.
  Qed.
  Lemma down_y j : forall x y i, ((j <= i)%nat -> snd (down j x y) i = y i) /\ forall y', (i < j)%nat -> snd (down j x y) i = snd (down j x y') i.
  Proof.
    induction j as [|k IH]; intros x y i; [split; [reflexivity|lia]|]. cbn [BordModel.down]. set (yk := _ / ep k). set (x2 := set_at _ _ _). split.
    - intros H. destruct (IH x2 (fun i : nat => if Nat.eqb i k then yk else y i) i) as [A _]. rewrite A by lia. destruct (Nat.eqb_spec i k); [lia|reflexivity].
    - intros y' H. destruct (Nat.eq_dec i k) as [->|Hne].
      + destruct (IH x2 (fun i : nat => if Nat.eqb i k then yk else y i) k) as [A _]. destruct (IH x2 (fun i : nat => if Nat.eqb i k then yk else y' i) k) as [B _]. rewrite A, B by lia. rewrite Nat.eqb_refl. reflexivity.
      + destruct (IH x2 (fun i : nat => if Nat.eqb i k then yk else y i) i) as [_ A]. apply A. lia.
  Qed.
  Lemma down_x j : forall x y y', fst (down j x y) = fst (down j x y').
  Proof. induction j as [|k IH]; intros x y y'; [reflexivity|]. cbn [BordModel.down]. apply IH. Qed.
  Lemma up_app y x tl k : (k < m)%nat -> (n + k < length x)%nat -> up_step y (x ++ tl) k = up_step y x k ++ tl /\ length (up_step y x k) = length x.
  Proof.
    intros Hk Lx. unfold BordModel.up_step.
    assert (E1 : nth (n + k) (x ++ tl) 0 = nth (n + k) x 0) by (apply app_nth1; lia).
    assert (E2 : firstn (n + k) (x ++ tl) = firstn (n + k) x). { rewrite firstn_app. replace (n + k - length x)%nat with 0%nat by lia. rewrite firstn_O, app_nil_r. reflexivity. }
    rewrite E1, E2. set (ypp := _ / dl k). assert (La : length (vscal ypp (vv k)) = (n + k)%nat) by (rewrite vscal_length; apply Hv; lia).
    rewrite set_at_app by lia. set (x1 := set_at x _ _). assert (L1 : length x1 = length x) by (apply set_at_length; lia).
    rewrite sub_prefix_app by lia. set (x2 := sub_prefix x1 _). assert (L2 : length x2 = length x) by (unfold x2; rewrite sub_prefix_length; lia).
    assert (E3 : nth (n + k) (x2 ++ tl) 0 = nth (n + k) x2 0) by (apply app_nth1; lia). rewrite E3, set_at_app by lia. split; [reflexivity|]. rewrite set_at_length; lia.
  Qed.
  Lemma up_fold y tl j : forall x, (j <= m)%nat -> length x = (n + j)%nat ->
    fold_left (up_step y) (seq 0 j) (x ++ tl) = fold_left (up_step y) (seq 0 j) x ++ tl /\ length (fold_left (up_step y) (seq 0 j) x) = (n + j)%nat.
  Proof.
    intros x Hj Lx. assert (G : forall i p z, (p + i <= j)%nat -> length z = (n + j)%nat ->
      fold_left (up_step y) (seq p i) (z ++ tl) = fold_left (up_step y) (seq p i) z ++ tl /\ length (fold_left (up_step y) (seq p i) z) = (n + j)%nat).
    { induction i as [|i IH]; intros p z Hp Lz; [split; [reflexivity|exact Lz]|]. cbn [seq fold_left]. destruct (up_app y z tl p) as [A B]; [lia|lia|]. rewrite A. apply IH; lia. }
    apply G; [lia|exact Lx].
  Qed.
  Lemma up_ext y y' j x : (forall i, (i < j)%nat -> y i = y' i) -> fold_left (up_step y) (seq 0 j) x = fold_left (up_step y') (seq 0 j) x.
  Proof.
    intros H. assert (G : forall l z, (forall i, In i l -> (i < j)%nat) -> fold_left (up_step y) l z = fold_left (up_step y') l z).
    { induction l as [|a l IH]; intros z Hl; [reflexivity|]. cbn [fold_left]. rewrite IH by (intros; apply Hl; right; assumption). unfold BordModel.up_step. rewrite (H a); [reflexivity|]. apply Hl. left. reflexivity. }
    apply G. intros i Hi. apply in_seq in Hi. lia.
  Qed.
  Lemma detail_length j x : (j <= m)%nat -> length x = (n + j)%nat -> length (detail j x) = (n + j)%nat.
  Proof.
    intros Hj Lx. unfold BordModel.detail. destruct (down_app j x [] (fun _ => 0) Hj Lx) as [_ L]. destruct (down j x (fun _ => 0)) as [x' y]. cbn [fst] in L.
    apply (up_fold y [] j); [exact Hj|]. rewrite app_length, skipn_length. rewrite Hcore; [lia|]. rewrite firstn_length. lia.
  Qed.
  (** the two loops are nested block eliminations *)
  Lemma detail_S k f h : (S k <= m)%nat -> length f = (n + k)%nat ->
    detail (S k) (f ++ [h]) =
      (let y := (h - dotp (ww k) f) / ep k in
       let z := detail k (vsub f (vscal y (cols k))) in
       let ypp := (h - d k * y - dotp (rows k) z) / dl k in
       vsub z (vscal ypp (vv k)) ++ [y + ypp]).
  Proof.
    intros Hk Lf. unfold BordModel.detail at 1. cbn [BordModel.down]. rewrite (firstn_len f) by exact Lf.
    assert (En : nth (n + k) (f ++ [h]) 0 = h) by (rewrite app_nth2, Lf, Nat.sub_diag by lia; reflexivity). rewrite En.
    set (y := (h - _) / ep k). cbv zeta. assert (Lc : length (vscal y (cols k)) = length f) by (rewrite vscal_length, Lf; apply Hc; lia).
    rewrite sub_prefix_snoc by exact Lc. set (f' := vsub f _). assert (Lf' : length f' = (n + k)%nat) by (unfold f'; rewrite vsub_length; congruence).
    assert (En' : nth (n + k) (f' ++ [h]) 0 = h) by (rewrite app_nth2, Lf', Nat.sub_diag by lia; reflexivity). rewrite En'. rewrite set_at_snoc by exact Lf'.
    set (h' := h - d k * y). set (y1 := fun i : nat => _). destruct (down_app k f' [h'] y1 ltac:(lia) Lf') as [Hd Ld]. rewrite Hd. set (g := fst (down k f' y1)) in *. set (yy := snd (down k f' y1)) in *.
    assert (E1 : firstn n (g ++ [h']) = firstn n g). { rewrite firstn_app. replace (n - length g)%nat with 0%nat by lia. rewrite firstn_O, app_nil_r. reflexivity. }
    assert (E2 : skipn n (g ++ [h']) = skipn n g ++ [h']). { rewrite skipn_app. replace (n - length g)%nat with 0%nat by lia. reflexivity. }
    rewrite E1, E2, app_assoc. set (g' := core (firstn n g) ++ skipn n g). assert (Lg' : length g' = (n + k)%nat). { unfold g'. rewrite app_length, skipn_length, Hcore; [lia|]. rewrite firstn_length. lia. }
    rewrite seq_S, fold_left_app. cbn [fold_left Nat.add]. destruct (up_fold yy [h'] k g' ltac:(lia) Lg') as [Hu Lu]. rewrite Hu.
    assert (Hz : fold_left (up_step yy) (seq 0 k) g' = detail k f').
    { unfold BordModel.detail. assert (Hx := down_x k f' (fun _ => 0) y1). assert (Hy := down_y k f' (fun _ => 0)). destruct (down k f' (fun _ => 0)) as [gx gy] eqn:E. cbn [fst snd] in Hx, Hy. subst gx. fold g. fold g'.
      apply up_ext. intros i Hi. destruct (Hy i) as [_ Q]. rewrite (Q y1 Hi). reflexivity. }
    rewrite Hz in Lu |- *. set (z := detail k f') in *. unfold BordModel.up_step. rewrite (firstn_len z) by exact Lu.
    assert (Eh : nth (n + k) (z ++ [h']) 0 = h') by (rewrite app_nth2, Lu, Nat.sub_diag by lia; reflexivity). rewrite Eh.
    assert (Eyy : yy k = y). { unfold yy. destruct (down_y k f' y1 k) as [Q _]. rewrite Q by lia. unfold y1. rewrite Nat.eqb_refl. reflexivity. }
    rewrite Eyy, set_at_snoc by exact Lu. set (ypp := _ / dl k). rewrite sub_prefix_snoc by (rewrite vscal_length, Lu; apply Hv; lia).
    assert (Lz : length (vsub z (vscal ypp (vv k))) = (n + k)%nat) by (rewrite vsub_length; [exact Lu|rewrite vscal_length, Lu; apply Hv; lia]).
    assert (Ey : nth (n + k) (vsub z (vscal ypp (vv k)) ++ [y]) 0 = y) by (rewrite app_nth2, Lz, Nat.sub_diag by lia; reflexivity). rewrite Ey.
    rewrite set_at_snoc by exact Lz. reflexivity.
  Qed.
  (** if the stored vectors and pivots are right the nested systems are solved *)
  Lemma detail_correct (A : rmat) j : (j <= m)%nat -> (forall f, length f = n -> solves n A (core f) f) ->
    (forall k, (k < j)%nat -> solves (n + k) (bords n A rows cols d k) (vv k) (cols k) /\ dl k = d k - dotp (rows k) (vv k) /\ dl k <> 0) ->
    forall x, length x = (n + j)%nat -> solves (n + j) (bords n A rows cols d j) (detail j x) x.
  Proof.
    intros Hj HA. induction j as [|k IH]; intros Hk x Lx.
    - unfold BordModel.detail. cbn [BordModel.down seq fold_left bords]. rewrite Nat.add_0_r in *. rewrite firstn_all2 by lia. rewrite skipn_all2 by lia. rewrite app_nil_r. apply HA, Lx.
    - destruct (snoc_split x (n + k)) as [f [h [-> [Lf _]]]]; [lia|]. rewrite detail_S by assumption. cbv zeta. replace (n + S k)%nat with (S (n + k)) by lia. cbn [bords].
      set (y := (h - _) / ep k). destruct (Hk k ltac:(lia)) as [[Lv Hvk] [Hd Hn]].
      assert (Lf' : length (vsub f (vscal y (cols k))) = (n + k)%nat) by (rewrite vsub_length; [exact Lf|rewrite vscal_length, Lf; apply Hc; lia]).
      destruct (IH ltac:(lia) ltac:(intros; apply Hk; lia) _ Lf') as [Lz Hz].
      apply bord_step; try assumption; [apply Hr; lia|apply Hc; lia|]. rewrite <- Hd. field. exact Hn.
  Qed.
End detail.

(** the storage *)
Lemma get_set_same st row from v : get_slice (set_slice st row from v) row from (from + length v) = v.
Proof.
  unfold get_slice, set_slice. replace (from + length v - from)%nat with (length v) by lia. rewrite <- (mk_nth v 0) at 2. apply mk_ext. intros k Hk.
  rewrite Nat.eqb_refl. destruct (Nat.leb_spec from (from + k)), (Nat.ltb_spec (from + k) (from + length v)); try lia. cbn [andb]. f_equal. lia.
Qed.
Lemma get_set_other st row from v row' a b : (row' <> row \/ b <= from \/ from + length v <= a)%nat -> get_slice (set_slice st row from v) row' a b = get_slice st row' a b.
Proof.
  intros H. apply mk_ext. intros k Hk. unfold set_slice. destruct (Nat.eqb_spec row' row), (Nat.leb_spec from (a + k)), (Nat.ltb_spec (a + k) (from + length v)); cbn [andb]; try reflexivity. lia.
Qed.
Lemma set_at_cell st row from v i j : set_slice st row from v i j = if Nat.eqb i row && Nat.leb from j && Nat.ltb j (from + length v) then nth (j - from) v 0 else st i j.
Proof. reflexivity. Qed.

(** what the stored data of border k must be *)
Definition stored (n : nat) (A : rmat) (b c : nat -> list R) (d : nat -> R) (m : nat) (st : nat -> nat -> R) (k : nat) : Prop :=
  solves (n + k) (bords n A b c d k) (st_v n m st k) (c k) /\ solves (n + k) (bords n (transp A) c b d k) (st_w n st k) (b k) /\
  st_delta st k = d k - dotp (b k) (st_v n m st k) /\ st_eps st k = d k - dotp (c k) (st_w n st k).
Lemma transp_bords n A b c d j : forall p q, transp (bords n A b c d j) p q = bords n (transp A) c b d j p q.
Proof.
  induction j as [|k IH]; intros p q; [reflexivity|]. cbn [bords]. rewrite transp_bord. unfold bord. destruct (Nat.ltb p (n + k)), (Nat.ltb q (n + k)); try reflexivity. apply IH.
Qed.
Lemma mv_transp_bords n A b c d j N x : mv N N (transp (bords n A b c d j)) x = mv N N (bords n (transp A) c b d j) x.
Proof. apply mv_ext; [intros; apply transp_bords|reflexivity]. Qed.
Lemma stored_pivots n A b c d m st k : length (b k) = (n + k)%nat -> length (c k) = (n + k)%nat -> stored n A b c d m st k -> nonsingular (n + S k) (bords n A b c d (S k)) ->
  st_delta st k <> 0 /\ st_eps st k <> 0.
Proof.
  intros Lb Lc [[L1 H1] [[L2 H2] [H3 H4]]] N. replace (n + S k)%nat with (S (n + k)) in N by lia. cbn [bords] in N.
  assert (E := eta_nonzero (n + k) _ _ _ _ Lb Lc _ L1 H1 N). rewrite H3, H4. split; [exact E|].
  assert (D := delta_eta (n + k) (bords n A b c d k) (st_w n st k) (st_v n m st k) (b k) (c k) L2 L1).
  rewrite (dotp_comm (c k)) by congruence. rewrite D; [exact E| |exact H1]. rewrite mv_transp_bords. exact H2.
Qed.

Section prep.
  Variables (s : solver) (n : nat) (A : rmat) (bs cs : list (list R)) (ds : list R).
  Let m := length bs.
  Let b := fun k => nth k bs [].
  Let c := fun k => nth k cs [].
  Let d := fun k => nth k ds 0.
  Hypotheses (Hs : exact_solver n A s)
    (Lb : forall k, (k < m)%nat -> length (b k) = (n + k)%nat) (Lc : forall k, (k < m)%nat -> length (c k) = (n + k)%nat)
    (N : forall k, (k < m)%nat -> nonsingular (n + S k) (bords n A b c d (S k))).
  Let e st := {| w_s := s; w_n := n; w_b := bs; w_c := cs; w_d := ds; w_st := st |}.

  Lemma solve_detail_ok st0 st j x : (j <= m)%nat -> (forall k, (k < j)%nat -> stored n A b c d m st k) -> length x = (n + j)%nat ->
    solves (n + j) (bords n A b c d j) (solve_detail (e st0) st j x) x.
  Proof.
    intros Hj Hst Lx. destruct Hs as [_ [S1 S2]]. unfold solve_detail. cbn [w_s w_n w_b w_c w_d e]. unfold w_m. cbn [w_b e]. fold m.
    change (fun k : nat => nth k bs []) with b. change (fun k : nat => nth k cs []) with c. change (fun k : nat => nth k ds 0) with d.
    apply (detail_correct _ n b c d _ _ _ _ j); try assumption; try lia.
    - intros f Lf. apply S1, Lf.
    - intros k Hk. apply Lb. lia.
    - intros k Hk. apply Lc. lia.
    - intros k Hk. apply Hst. exact Hk.
    - intros k Hk. assert (Q := Hst k Hk). destruct (stored_pivots n A b c d m st k) as [P _]; [apply Lb; lia|apply Lc; lia|exact Q|apply N; lia|]. destruct Q as [Q1 [_ [Q3 _]]]. repeat split; try assumption; apply Q1.
  Qed.
  Lemma solve_adj_detail_ok st0 st j x : (j <= m)%nat -> (forall k, (k < j)%nat -> stored n A b c d m st k) -> length x = (n + j)%nat ->
    solves (n + j) (bords n (transp A) c b d j) (solve_adj_detail (e st0) st j x) x.
  Proof.
    intros Hj Hst Lx. destruct Hs as [_ [S1 S2]]. unfold solve_adj_detail. cbn [w_s w_n w_b w_c w_d e]. unfold w_m. cbn [w_b e]. fold m.
    change (fun k : nat => nth k bs []) with b. change (fun k : nat => nth k cs []) with c. change (fun k : nat => nth k ds 0) with d.
    apply (detail_correct _ n c b d _ _ _ _ j); try assumption; try lia.
    - intros f Lf. apply S2, Lf.
    - intros k Hk. apply Lc. lia.
    - intros k Hk. apply Lb. lia.
    - intros k Hk. apply Hst. exact Hk.
    - intros k Hk. assert (Q := Hst k Hk). destruct (stored_pivots n A b c d m st k) as [_ P]; [apply Lb; lia|apply Lc; lia|exact Q|apply N; lia|]. destruct Q as [_ [Q1 [_ Q3]]]. repeat split; try assumption; apply Q1.
  Qed.
  (** details depend on the storage only through the stored data of earlier borders *)
  Definition same_data (st st' : nat -> nat -> R) (k : nat) : Prop :=
    st_v n m st' k = st_v n m st k /\ st_w n st' k = st_w n st k /\ st_delta st' k = st_delta st k /\ st_eps st' k = st_eps st k.
  Lemma stored_same st st' k : same_data st st' k -> stored n A b c d m st k -> stored n A b c d m st' k.
  Proof. intros [E1 [E2 [E3 E4]]]. unfold stored. rewrite E1, E2, E3, E4. auto. Qed.

  Lemma frame_v st k v i : (i < k)%nat -> (k < m)%nat -> length v = (n + k)%nat -> same_data st (set_slice st (m - k - 1) (2 + (m - k - 1) + n) v) i.
  Proof.
    intros Hi Hk Lv. repeat split.
    - unfold st_v. apply get_set_other. lia.
    - unfold st_w. apply get_set_other. lia.
    - unfold st_delta. rewrite set_at_cell. destruct (Nat.leb_spec (2 + (m - k - 1) + n) 0); [lia|]. rewrite andb_false_r. reflexivity.
    - unfold st_eps. rewrite set_at_cell. destruct (Nat.leb_spec (2 + (m - k - 1) + n) 1); [lia|]. rewrite andb_false_r. reflexivity.
  Qed.
  Lemma frame_row st k from v i : (i < k)%nat -> (k < m)%nat -> (from + length v <= n + k + 2)%nat -> same_data st (set_slice st k from v) i.
  Proof.
    intros Hi Hk Lv. repeat split.
    - unfold st_v. apply get_set_other. lia.
    - unfold st_w. apply get_set_other. lia.
    - unfold st_delta. rewrite set_at_cell. destruct (Nat.eqb_spec i k); [lia|]. reflexivity.
    - unfold st_eps. rewrite set_at_cell. destruct (Nat.eqb_spec i k); [lia|]. reflexivity.
  Qed.
  Lemma frame_v_self st k from v : (k < m)%nat -> (from + length v <= n + k + 2)%nat -> st_v n m (set_slice st k from v) k = st_v n m st k.
  Proof. intros Hk Lv. unfold st_v. apply get_set_other. lia. Qed.
  Lemma prepare_step_ok st0 st k : (k < m)%nat -> (forall i, (i < k)%nat -> stored n A b c d m st i) -> forall i, (i < S k)%nat -> stored n A b c d m (prepare_step (e st0) st k) i.
  Proof.
    intros Hk Hst. unfold prepare_step. cbn [w_n w_b w_c w_d e]. unfold w_m. cbn [w_b e]. fold m. fold (b k). fold (c k). fold (d k).
    set (vk := solve_detail (e st0) st k (c k)). assert (V : solves (n + k) (bords n A b c d k) vk (c k)) by (apply solve_detail_ok; [lia|exact Hst|apply Lc; exact Hk]).
    assert (Lv := proj1 V). cbv zeta. set (st1 := set_slice st (m - k - 1) (2 + (m - k - 1) + n) vk). set (st2 := set_slice st1 k 0 [d k - dotp (b k) vk]).
    assert (F2 : forall i, (i < k)%nat -> stored n A b c d m st2 i).
    { intros i Hi. apply (stored_same st1); [apply frame_row; cbn; lia|]. apply (stored_same st); [apply frame_v; lia|]. apply Hst, Hi. }
    set (wk := solve_adj_detail (e st0) st2 k (b k)). assert (W : solves (n + k) (bords n (transp A) c b d k) wk (b k)) by (apply solve_adj_detail_ok; [lia|exact F2|apply Lb; exact Hk]).
    assert (Lw := proj1 W). set (st3 := set_slice st2 k 2 wk). set (st4 := set_slice st3 k 1 _).
    intros i Hi. destruct (Nat.eq_dec i k) as [->|Hne].
    - assert (Ev : st_v n m st4 k = vk).
      { unfold st4. rewrite frame_v_self by (cbn; lia). unfold st3. rewrite frame_v_self by lia. unfold st2. rewrite frame_v_self by (cbn; lia).
        unfold st_v, st1. replace (m + 2 * n + 1)%nat with (2 + (m - k - 1) + n + length vk)%nat by lia. apply get_set_same. }
      assert (Ew : st_w n st4 k = wk).
      { unfold st_w, st4. rewrite get_set_other by (cbn; lia). unfold st3. replace (n + k + 2)%nat with (2 + length wk)%nat by lia. apply get_set_same. }
      assert (Ed : st_delta st4 k = d k - dotp (b k) vk).
      { unfold st_delta, st4, st3, st2. rewrite !set_at_cell. rewrite Nat.eqb_refl. cbn. reflexivity. }
      assert (Ee : st_eps st4 k = d k - dotp (c k) wk).
      { unfold st_eps, st4. rewrite set_at_cell. rewrite Nat.eqb_refl. cbn. reflexivity. }
      unfold stored. rewrite Ev, Ew, Ed, Ee. repeat split; first [apply V | apply W].
    - apply (stored_same st3); [apply frame_row; cbn; lia|]. apply (stored_same st2); [apply frame_row; lia|]. apply F2. lia.
  Qed.
  Lemma prepare_ok st0 i : (i < m)%nat -> stored n A b c d m (prepare (e st0) st0) i.
  Proof.
    unfold prepare, w_m. cbn [w_b e]. fold m.
    assert (G : forall k, (k <= m)%nat -> forall i, (i < k)%nat -> stored n A b c d m (fold_left (prepare_step (e st0)) (seq 0 k) st0) i).
    { induction k as [|k IH]; intros Hk j Hj; [lia|]. rewrite seq_S, fold_left_app. cbn [fold_left Nat.add]. apply prepare_step_ok; try lia. intros; apply IH; lia. }
    apply G. lia.
  Qed.
  Lemma bemw_solve_ok st0 r : length r = (n + m)%nat -> solves (n + m) (bords n A b c d m) (bemw_solve (bemw_new s n bs cs ds st0) r) r.
  Proof. intros Lr. apply (solve_detail_ok (prepare (e st0) st0)); [apply Nat.le_refl| |exact Lr]. intros k Hk. apply (prepare_ok st0). exact Hk. Qed.
  Lemma bemw_solve_adj_ok st0 r : length r = (n + m)%nat -> solves (n + m) (transp (bords n A b c d m)) (bemw_solve_adj (bemw_new s n bs cs ds st0) r) r.
  Proof.
    intros Lr. assert (H : solves (n + m) (bords n (transp A) c b d m) (bemw_solve_adj (bemw_new s n bs cs ds st0) r) r).
    { apply (solve_adj_detail_ok (prepare (e st0) st0)); [apply Nat.le_refl| |exact Lr]. intros k Hk. apply (prepare_ok st0). exact Hk. }
    destruct H as [L H]. split; [exact L|]. rewrite mv_transp_bords. exact H.
  Qed.
End prep.
(** C40 *)
Lemma bemw_solve_correct s n A bs cs ds st0 r : exact_solver n A s -> good_borders n A bs cs ds -> length r = (n + length bs)%nat ->
  solves (n + length bs) (borders n A bs cs ds) (bemw_solve (bemw_new s n bs cs ds st0) r) r.
Proof. intros Hs [_ [_ G]] Lr. apply bemw_solve_ok; try assumption; intros k Hk; apply G, Hk. Qed.
Lemma bemw_solve_adj_correct s n A bs cs ds st0 r : exact_solver n A s -> good_borders n A bs cs ds -> length r = (n + length bs)%nat ->
  solves (n + length bs) (transp (borders n A bs cs ds)) (bemw_solve_adj (bemw_new s n bs cs ds st0) r) r.
Proof. intros Hs [_ [_ G]] Lr. apply bemw_solve_adj_ok; try assumption; intros k Hk; apply G, Hk. Qed.
Lemma bemw_null_correct s n A bs cs ds st0 : exact_solver n A s -> good_borders n A bs cs ds -> (1 <= length bs)%nat ->
  solves (n + length bs) (borders n A bs cs ds) (bemw_solve_null (bemw_new s n bs cs ds st0)) (zeros (n + length bs - 1) ++ [1]).
Proof. intros Hs G L. apply bemw_solve_correct; try assumption. rewrite app_length, zeros_length. cbn [length]. lia. Qed.
Lemma bemw_zero_correct s n A bs cs ds st0 f : exact_solver n A s -> good_borders n A bs cs ds -> (1 <= length bs)%nat -> length f = (n + length bs - 1)%nat ->
  solves (n + length bs) (borders n A bs cs ds) (bemw_solve_zero (bemw_new s n bs cs ds st0) f) (f ++ [0]).
Proof. intros Hs G L Lf. apply bemw_solve_correct; try assumption. rewrite app_length. cbn [length]. lia. Qed.
Lemma bemw_min_norm_correct s n A bs cs ds st0 f : exact_solver n A s -> good_borders n A bs cs ds -> (1 <= length bs)%nat -> length f = (n + length bs - 1)%nat ->
  let N := (n + length bs)%nat in let B := borders n A bs cs ds in let r := bemw_min_norm (bemw_new s n bs cs ds st0) f in
  length r = N /\ mv (N - 1) N B r = f /\ forall v, length v = N -> mv (N - 1) N B v = f -> dotp r r <= dotp v v.
Proof.
  intros Hs G L Lf. cbv zeta. unfold bemw_min_norm. destruct (bemw_zero_correct s n A bs cs ds st0 f Hs G L Lf) as [Lx Hx]. destruct (bemw_null_correct s n A bs cs ds st0 Hs G L) as [Lt Ht].
  set (B := borders n A bs cs ds) in *. destruct (n + length bs)%nat as [|M] eqn:EN; [lia|]. replace (S M - 1)%nat with M in * by lia.
  apply (min_norm_core M B B _ _ f 1); try assumption; [| |lra].
  - intros v Lv. unfold mv, mk. rewrite seq_S, map_app. cbn [map]. rewrite removelast_last. reflexivity.
  - destruct G as [_ [_ G]]. destruct (G (length bs - 1)%nat ltac:(lia)) as [_ [_ Q]]. replace (S (length bs - 1)) with (length bs) in Q by lia. rewrite EN in Q. exact Q.
Qed.
(** histories of updates *)
Lemma put_set_nth {T} (l : list T) j a dflt : (j < length l)%nat -> put l j a dflt = set_nth l j a.
Proof.
  intros Hj. unfold put, set_nth. apply (nth_ext _ _ dflt dflt).
  - rewrite map_length, seq_length, app_length, firstn_length. cbn [length]. rewrite skipn_length. lia.
  - rewrite map_length, seq_length. intros i Hi. set (g := fun i => if Nat.eqb i j then a else nth i l dflt). rewrite (nth_indep _ dflt (g 0%nat)) by (rewrite map_length, seq_length; exact Hi).
    rewrite (map_nth g), seq_nth by exact Hi. cbn [Nat.add]. unfold g. assert (Lf : length (firstn j l) = j) by (rewrite firstn_length; lia).
    destruct (Nat.eqb_spec i j) as [->|Hne].
    + rewrite app_nth2 by lia. rewrite Lf, Nat.sub_diag. reflexivity.
    + destruct (Nat.lt_ge_cases i j) as [H|H].
      * rewrite app_nth1 by lia. rewrite <- (firstn_skipn j l) at 1. rewrite app_nth1 by lia. reflexivity.
      * rewrite app_nth2 by lia. rewrite Lf. destruct (i - j)%nat as [|k] eqn:E; [lia|]. cbn [nth]. rewrite <- (firstn_skipn (S j) l) at 1.
        assert (Lf' : length (firstn (S j) l) = S j) by (rewrite firstn_length; lia). rewrite app_nth2 by lia. rewrite Lf'. f_equal. lia.
Qed.
Lemma bemw_history s n ops : forall bs cs ds st0, length cs = length bs -> length ds = length bs -> (forall o, In o ops -> (w_index o < length bs)%nat) ->
  exists st, fold_left w_run ops (bemw_new s n bs cs ds st0) = let '(bs', cs', ds') := fold_left w_data ops (bs, cs, ds) in bemw_new s n bs' cs' ds' st.
Proof.
  induction ops as [|o ops IH]; intros bs cs ds st0 Lc Ld Hi; [exists st0; reflexivity|].
  assert (Ho := Hi o (or_introl eq_refl)). cbn [fold_left].
  assert (Pl : forall (T : Type) (l : list T) j a dflt, length (put l j a dflt) = length l) by (intros; unfold put; rewrite map_length, seq_length; reflexivity).
  destruct o as [j b d st|j c d st]; cbn [w_index] in Ho; cbn [w_data w_run].
  - unfold bemw_update_row. cbn [w_s w_n w_b w_c w_d bemw_new]. rewrite <- (put_set_nth bs j b []) by exact Ho. rewrite <- (put_set_nth ds j d 0) by lia.
    apply IH; rewrite ?Pl; try assumption. intros o H. apply Hi. right. exact H.
  - unfold bemw_update_col. cbn [w_s w_n w_b w_c w_d bemw_new]. rewrite <- (put_set_nth cs j c []) by lia. rewrite <- (put_set_nth ds j d 0) by lia.
    apply IH; rewrite ?Pl; try assumption. intros o H. apply Hi. right. exact H.
Qed.
Lemma bemw_history_solve s n A ops bs cs ds st0 r : exact_solver n A s -> length cs = length bs -> length ds = length bs -> (forall o, In o ops -> (w_index o < length bs)%nat) ->
  let e := fold_left w_run ops (bemw_new s n bs cs ds st0) in
  let '(bs', cs', ds') := fold_left w_data ops (bs, cs, ds) in
  good_borders n A bs' cs' ds' -> length r = (n + length bs')%nat ->
  solves (n + length bs') (borders n A bs' cs' ds') (bemw_solve e r) r /\ solves (n + length bs') (transp (borders n A bs' cs' ds')) (bemw_solve_adj e r) r.
Proof.
  intros Hs Lc Ld Hi. cbv zeta. destruct (bemw_history s n ops bs cs ds st0 Lc Ld Hi) as [st ->]. destruct (fold_left w_data ops (bs, cs, ds)) as [[bs' cs'] ds'].
  intros G Lr. split; [apply bemw_solve_correct; assumption|apply bemw_solve_adj_correct; assumption].
Qed.
