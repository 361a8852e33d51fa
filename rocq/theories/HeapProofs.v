(** Facts about the memory model: the effect of the primitive operations. *)
From Coq Require Import Reals ZArith List Arith Lia Lra Bool.
From Verif Require Import Base ChebSpec ChebModel ChebModel2 FunModel DivModel ChebEval ChebDct ChebCalc ChebObj ChebArith ChebMulObj ChebConstr NormThm FunProofs HeapModel.
Import ListNotations.
Open Scope R_scope.

(** every object refers to different allocated columns and shows a function *)
Definition ogood (m : mem) (o : obj) : Prop :=
  List.Forall (fun c => (c < ncells m)%nat) (ocols o) /\ NoDup (ocols o) /\ wf (read_obj m o).
Definition mgood (m : mem) : Prop := forall p, (p < nobjs m)%nat -> ogood m (objs m p).
Definition disjoint (l k : list nat) : Prop := forall c, In c l -> In c k -> False.
(** objects that share nothing still share nothing *)
Definition psep (m m' : mem) : Prop :=
  forall p q, (p < nobjs m)%nat -> (q < nobjs m)%nat -> p <> q ->
    disjoint (ocols (objs m p)) (ocols (objs m q)) -> disjoint (ocols (objs m' p)) (ocols (objs m' q)).
(** two chebtechs are the same function *)
Definition same_fun (f g : chebtech) : Prop := ncols f = ncols g /\ forall j x, ev f j x = ev g j x.
Lemma same_fun_refl f : same_fun f f.
Proof. split; reflexivity. Qed.
Lemma same_fun_trans f g h : same_fun f g -> same_fun g h -> same_fun f h.
Proof. intros [A B] [C D]. split; [congruence|]. intros. rewrite B. apply D. Qed.
Definition obj_at (m : mem) (p : nat) : chebtech := read_obj m (objs m p).

Lemma read_obj_ext m m' o : (forall c, In c (ocols o) -> cells m' c = cells m c) -> read_obj m' o = read_obj m o.
Proof. intros H. unfold read_obj. f_equal. apply map_ext_in. exact H. Qed.

(** ** write *)
Lemma write_rest m l A : ncells (write m l A) = ncells m /\ objs (write m l A) = objs m /\ nobjs (write m l A) = nobjs m.
Proof.
  revert m A. induction l as [|i l IH]; intros m [|c A]; cbn [write]; try (repeat split; reflexivity).
  destruct (IH (mkMem (fun k => if Nat.eqb k i then c else cells m k) (ncells m) (objs m) (nobjs m)) A) as (H1 & H2 & H3).
  cbn [ncells objs nobjs] in *. auto.
Qed.
Lemma write_other m l A k : ~ In k l -> cells (write m l A) k = cells m k.
Proof.
  revert m A. induction l as [|i l IH]; intros m [|c A] H; cbn [write]; try reflexivity.
  rewrite IH by (intros Q; apply H; right; exact Q). cbn [cells].
  destruct (Nat.eqb_spec k i); [exfalso; apply H; left; auto|reflexivity].
Qed.
Lemma write_same m l A : NoDup l -> length l = length A -> map (cells (write m l A)) l = A.
Proof.
  revert m A. induction l as [|i l IH]; intros m [|c A] N L; try discriminate; [reflexivity|].
  inversion N; subst. cbn [write map]. f_equal.
  - rewrite write_other by assumption. cbn [cells]. rewrite Nat.eqb_refl. reflexivity.
  - apply IH; [assumption|]. cbn in L. lia.
Qed.
Lemma write_len m l A k : length l = length A ->
  (forall j, (j < length l)%nat -> length (nth j A []) = length (cells m (nth j l 0%nat))) -> NoDup l ->
  length (cells (write m l A) k) = length (cells m k).
Proof.
  intros L H N. destruct (in_dec Nat.eq_dec k l) as [I|I]; [|rewrite write_other by exact I; reflexivity].
  destruct (In_nth l k 0%nat I) as (j & Hj & E).
  assert (Q : nth j (map (cells (write m l A)) l) [] = nth j A []) by (rewrite write_same by assumption; reflexivity).
  rewrite (nth_indep _ [] (cells (write m l A) 0%nat)) in Q by (rewrite map_length; exact Hj).
  rewrite map_nth, E in Q. rewrite Q, H by exact Hj. rewrite E. reflexivity.
Qed.

Lemma wf_lens m m' o : (forall c, In c (ocols o) -> length (cells m' c) = length (cells m c)) ->
  wf (read_obj m o) -> wf (read_obj m' o).
Proof.
  intros H [n (H1 & H2 & H3)]. exists n. split; [exact H1|]. cbn [read_obj coeffs] in *. split.
  - destruct (ocols o); [contradiction H2; reflexivity|discriminate].
  - rewrite List.Forall_forall in *. intros d Hd. apply in_map_iff in Hd. destruct Hd as (c & <- & I).
    rewrite H by exact I. apply H3. apply in_map. exact I.
Qed.

Lemma write_spec m p C : mgood m -> (p < nobjs m)%nat -> rect (len (obj_at m p)) C -> length C = ncols (obj_at m p) ->
  let m' := write m (ocols (objs m p)) C in
  mgood m' /\ nobjs m' = nobjs m /\ objs m' = objs m /\ ncells m' = ncells m /\
  coeffs (obj_at m' p) = C /\ psep m m' /\
  (forall o, disjoint (ocols o) (ocols (objs m p)) -> read_obj m' o = read_obj m o).
Proof.
  intros G Hp RC LC m'. destruct (write_rest m (ocols (objs m p)) C) as (E1 & E2 & E3). fold m' in E1, E2, E3.
  destruct (G p Hp) as (B & N & W).
  assert (L : length (ocols (objs m p)) = length C).
  { rewrite LC. unfold ncols, obj_at. cbn [read_obj coeffs]. rewrite map_length. reflexivity. }
  assert (HL : forall k, length (cells m' k) = length (cells m k)).
  { intros k. apply write_len; [exact L| |exact N]. intros j Hj.
    rewrite (rect_nth _ _ j RC) by lia. rewrite <- (col_len (obj_at m p) j W) by lia.
    unfold obj_at. cbn [read_obj coeffs]. rewrite (nth_indep _ [] (cells m 0%nat)) by (rewrite map_length; exact Hj).
    rewrite map_nth. reflexivity. }
  split.
  { intros q Hq. rewrite E3 in Hq. destruct (G q Hq) as (B' & N' & W'). unfold ogood. rewrite E1, E2. split; [exact B'|].
    split; [exact N'|]. apply (wf_lens m); [intros; apply HL|exact W']. }
  split; [exact E3|]. split; [exact E2|]. split; [exact E1|]. split.
  { unfold obj_at. rewrite E2. cbn [read_obj coeffs]. apply write_same; assumption. }
  split.
  { intros q q' _ _ _ D. rewrite E2. exact D. }
  intros o D. apply read_obj_ext. intros c Hc. apply write_other. intros I. exact (D c Hc I).
Qed.

(** ** new arrays *)
Lemma alloc_old m A c : (c < ncells m)%nat -> cells (fst (alloc m A)) c = cells m c.
Proof. intros H. cbn [alloc fst cells]. destruct (Nat.ltb_spec c (ncells m)); [reflexivity|lia]. Qed.
Lemma alloc_new m A : map (cells (fst (alloc m A))) (snd (alloc m A)) = A.
Proof.
  cbn [alloc fst snd cells]. apply list_ext with [].
  - rewrite map_length, seq_length. reflexivity.
  - intros k Hk. rewrite map_length, seq_length in Hk.
    set (g := fun i => if Nat.ltb i (ncells m) then cells m i else nth (i - ncells m) A []).
    rewrite (nth_indep _ [] (g 0%nat)) by (rewrite map_length, seq_length; exact Hk). rewrite map_nth, seq_nth by exact Hk.
    unfold g. destruct (Nat.ltb_spec (ncells m + k) (ncells m)); [lia|]. f_equal. lia.
Qed.

Lemma rebind_spec m p A n : mgood m -> (p < nobjs m)%nat -> rect n A ->
  let m' := rebind m p A in
  mgood m' /\ nobjs m' = nobjs m /\ (ncells m <= ncells m')%nat /\
  obj_at m' p = mkCheb A (oeps (objs m p)) (ohscale (objs m p)) (omax (objs m p)) (ohappy (objs m p)) /\
  (forall q, (q < nobjs m)%nat -> q <> p -> obj_at m' q = obj_at m q /\ objs m' q = objs m q) /\
  (forall c, In c (ocols (objs m' p)) -> (ncells m <= c)%nat) /\
  psep m m'.
Proof.
  intros G Hp RA m'.
  assert (Ep : objs m' p = mkObj (seq (ncells m) (length A)) (oeps (objs m p)) (ohscale (objs m p)) (omax (objs m p)) (ohappy (objs m p))).
  { unfold m', rebind. cbn. rewrite Nat.eqb_refl. reflexivity. }
  assert (Eq : forall q, q <> p -> objs m' q = objs m q).
  { intros q H. unfold m', rebind. cbn. destruct (Nat.eqb_spec q p); [contradiction|reflexivity]. }
  assert (EN : ncells m' = (ncells m + length A)%nat) by reflexivity.
  assert (EO : nobjs m' = nobjs m) by reflexivity.
  assert (EC : forall c, (c < ncells m)%nat -> cells m' c = cells m c) by (intros c H; exact (alloc_old m A c H)).
  assert (ER : obj_at m' p = mkCheb A (oeps (objs m p)) (ohscale (objs m p)) (omax (objs m p)) (ohappy (objs m p))).
  { unfold obj_at. rewrite Ep. unfold read_obj. cbn [ocols oeps ohscale omax ohappy]. f_equal. exact (alloc_new m A). }
  assert (EF : forall q, (q < nobjs m)%nat -> q <> p -> obj_at m' q = obj_at m q).
  { intros q Hq Hn. unfold obj_at. rewrite Eq by exact Hn. apply read_obj_ext. intros c Hc. apply EC.
    destruct (G q Hq) as (B & _). rewrite List.Forall_forall in B. apply B. exact Hc. }
  assert (FR : forall c, In c (ocols (objs m' p)) -> (ncells m <= c)%nat).
  { intros c Hc. rewrite Ep in Hc. cbn [ocols] in Hc. apply in_seq in Hc. lia. }
  split.
  { intros q Hq. rewrite EO in Hq. destruct (Nat.eq_dec q p) as [->|Hn].
    - unfold ogood. fold (obj_at m' p). rewrite ER, Ep, EN. cbn [ocols]. split; [|split].
      + apply List.Forall_forall. intros c Hc. apply in_seq in Hc. lia.
      + apply seq_NoDup.
      + exists n. exact RA.
    - destruct (G q Hq) as (B & N & W). unfold ogood. fold (obj_at m' q). rewrite (EF q Hq Hn), (Eq q Hn), EN. split; [|split; assumption].
      eapply List.Forall_impl; [|exact B]. cbn. intros. lia. }
  split; [exact EO|]. split; [lia|]. split; [exact ER|]. split; [intros q Hq Hn; split; [apply EF|apply Eq]; assumption|].
  split; [exact FR|].
  intros q q' Hq Hq' Hn D c H1 H2.
  destruct (Nat.eq_dec q p) as [->|N1]; destruct (Nat.eq_dec q' p) as [->|N2]; try congruence.
  - rewrite (Eq q' N2) in H2. destruct (G q' Hq') as (B & _). rewrite List.Forall_forall in B. specialize (B c H2). specialize (FR c H1). lia.
  - rewrite (Eq q N1) in H1. destruct (G q Hq) as (B & _). rewrite List.Forall_forall in B. specialize (B c H1). specialize (FR c H2). lia.
  - rewrite (Eq q N1) in H1. rewrite (Eq q' N2) in H2. exact (D c H1 H2).
Qed.

Lemma set_flags_spec m p e b : mgood m -> (p < nobjs m)%nat ->
  let m' := set_flags m p e b in
  mgood m' /\ nobjs m' = nobjs m /\ ncells m' = ncells m /\ cells m' = cells m /\
  obj_at m' p = mkCheb (coeffs (obj_at m p)) e (hscale (obj_at m p)) (maxLength (obj_at m p)) b /\
  (forall q, ocols (objs m' q) = ocols (objs m q)) /\
  (forall q, q <> p -> obj_at m' q = obj_at m q) /\ psep m m'.
Proof.
  intros G Hp m'.
  assert (Ep : objs m' p = mkObj (ocols (objs m p)) e (ohscale (objs m p)) (omax (objs m p)) b).
  { unfold m', set_flags. cbn. rewrite Nat.eqb_refl. reflexivity. }
  assert (Eq : forall q, q <> p -> objs m' q = objs m q).
  { intros q H. unfold m', set_flags. cbn. destruct (Nat.eqb_spec q p); [contradiction|reflexivity]. }
  assert (EC : forall q, ocols (objs m' q) = ocols (objs m q)).
  { intros q. destruct (Nat.eq_dec q p) as [->|H]; [rewrite Ep; reflexivity|rewrite (Eq q H); reflexivity]. }
  split.
  { intros q Hq. destruct (G q Hq) as (B & N & W). unfold ogood. rewrite EC. split; [exact B|]. split; [exact N|].
    destruct W as [n W]. exists n. cbn [read_obj coeffs] in *. rewrite EC. exact W. }
  split; [reflexivity|]. split; [reflexivity|]. split; [reflexivity|]. split.
  { unfold obj_at. rewrite Ep. reflexivity. }
  split; [exact EC|]. split.
  { intros q H. unfold obj_at. rewrite (Eq q H). reflexivity. }
  intros q q' Hq Hq' Hn D. rewrite !EC. exact D.
Qed.

Lemma new_obj_spec m o : mgood m -> ogood m o ->
  let m' := fst (new_obj m o) in let p := snd (new_obj m o) in
  mgood m' /\ nobjs m' = S (nobjs m) /\ p = nobjs m /\ ncells m' = ncells m /\ cells m' = cells m /\
  objs m' p = o /\ (forall q, (q < nobjs m)%nat -> objs m' q = objs m q).
Proof.
  intros G Ho m' p.
  assert (Ep : objs m' p = o) by (cbn; rewrite Nat.eqb_refl; reflexivity).
  assert (Eq : forall q, (q < nobjs m)%nat -> objs m' q = objs m q).
  { intros q H. cbn. destruct (Nat.eqb_spec q (nobjs m)); [lia|reflexivity]. }
  split.
  { intros q Hq. cbn in Hq. destruct (Nat.eq_dec q (nobjs m)) as [->|Hn].
    - change (objs m' (nobjs m)) with (objs m' p). rewrite Ep. exact Ho.
    - rewrite (Eq q) by lia. apply (G q). lia. }
  repeat (split; [first [reflexivity|exact Ep]|]). exact Eq.
Qed.

Lemma new_cheb_spec m f : mgood m -> wf f ->
  let m' := fst (new_cheb m f) in let p := snd (new_cheb m f) in
  mgood m' /\ nobjs m' = S (nobjs m) /\ p = nobjs m /\ (ncells m <= ncells m')%nat /\
  obj_at m' p = f /\ (forall q, (q < nobjs m)%nat -> obj_at m' q = obj_at m q /\ objs m' q = objs m q) /\
  (forall c, In c (ocols (objs m' p)) -> (ncells m <= c)%nat) /\ psep m m'.
Proof.
  intros G W.
  assert (E : new_cheb m f = new_obj (fst (alloc m (coeffs f))) (mkObj (snd (alloc m (coeffs f))) (eps f) (hscale f) (maxLength f) (ishappy f))) by reflexivity.
  rewrite E. set (m1 := fst (alloc m (coeffs f))). set (o := mkObj (snd (alloc m (coeffs f))) (eps f) (hscale f) (maxLength f) (ishappy f)).
  assert (EC : forall c, (c < ncells m)%nat -> cells m1 c = cells m c) by (intros c H; exact (alloc_old m (coeffs f) c H)).
  assert (EN : ncells m1 = (ncells m + length (coeffs f))%nat) by reflexivity.
  assert (RO : read_obj m1 o = f).
  { unfold read_obj, o. cbn [ocols oeps ohscale omax ohappy]. unfold m1. rewrite alloc_new. destruct f; reflexivity. }
  assert (RQ : forall q, (q < nobjs m)%nat -> read_obj m1 (objs m q) = obj_at m q).
  { intros q Hq. apply read_obj_ext. intros c Hc. apply EC. destruct (G q Hq) as (B & _). rewrite List.Forall_forall in B. exact (B c Hc). }
  assert (G1 : mgood m1).
  { intros q Hq. destruct (G q Hq) as (B & N & Wq). unfold ogood. change (objs m1 q) with (objs m q). rewrite (RQ q Hq), EN.
    split; [|split; assumption]. eapply List.Forall_impl; [|exact B]. cbn. intros. lia. }
  assert (GO : ogood m1 o).
  { unfold ogood. rewrite RO, EN. split; [|split; [apply seq_NoDup|exact W]]. apply List.Forall_forall. intros c Hc.
    cbn [o ocols alloc snd] in Hc. apply in_seq in Hc. lia. }
  destruct (new_obj_spec m1 o G1 GO) as (H1 & H2 & H3 & H4 & H5 & H6 & H7).
  set (m' := fst (new_obj m1 o)) in *. set (p := snd (new_obj m1 o)) in *. cbv zeta.
  assert (FR : forall c, In c (ocols (objs m' p)) -> (ncells m <= c)%nat).
  { intros c Hc. rewrite H6 in Hc. cbn [o ocols alloc snd] in Hc. apply in_seq in Hc. lia. }
  split; [exact H1|]. split; [exact H2|]. split; [exact H3|]. split; [rewrite H4; lia|]. split.
  { unfold obj_at. rewrite H6. unfold read_obj. rewrite H5. exact RO. }
  split.
  { intros q Hq. split; [|apply H7; exact Hq]. unfold obj_at at 1. rewrite (H7 q Hq). unfold read_obj. rewrite H5. apply (RQ q Hq). }
  split; [exact FR|].
  intros q q' Hq Hq' Hn D. rewrite (H7 q Hq), (H7 q' Hq'). exact D.
Qed.

(** ** the operations *)
(** what an operation on the object p does besides its purpose: the functions that share nothing with p stay what they
    are; when it raises, all functions stay what they are *)
Definition effect (m : mem) (p : nat) (r : outcome) : Prop :=
  mgood (fst r) /\ (nobjs m <= nobjs (fst r))%nat /\ psep m (fst r) /\
  (forall q, (q < nobjs m)%nat -> q <> p -> disjoint (ocols (objs m q)) (ocols (objs m p)) ->
     same_fun (obj_at (fst r) q) (obj_at m q)) /\
  (snd r = true -> forall q, (q < nobjs m)%nat -> same_fun (obj_at (fst r) q) (obj_at m q)).

Lemma effect_raised m p : mgood m -> effect m p (raised m).
Proof.
  intros G. unfold effect, raised. cbn [fst snd]. split; [exact G|]. split; [lia|]. split; [intros k l _ _ _ D; exact D|]. split; intros; apply same_fun_refl.
Qed.

Lemma effect_write m p C : mgood m -> (p < nobjs m)%nat -> rect (len (obj_at m p)) C -> length C = ncols (obj_at m p) ->
  effect m p (fine (write m (ocols (objs m p)) C)) /\ coeffs (obj_at (write m (ocols (objs m p)) C) p) = C.
Proof.
  intros G Hp RC LC. destruct (write_spec m p C G Hp RC LC) as (H1 & H2 & H3 & H4 & H5 & H6 & H7).
  split; [|exact H5]. unfold effect, fine. cbn [fst snd]. split; [exact H1|]. split; [lia|]. split; [exact H6|]. split; [|discriminate].
  intros q Hq Hn D. unfold obj_at. rewrite H3. rewrite (H7 (objs m q) D). apply same_fun_refl.
Qed.

Lemma effect_rebind m p A n : mgood m -> (p < nobjs m)%nat -> rect n A -> effect m p (fine (rebind m p A)).
Proof.
  intros G Hp RA. destruct (rebind_spec m p A n G Hp RA) as (H1 & H2 & H3 & H4 & H5 & H6 & H7).
  unfold effect, fine. cbn [fst snd]. split; [exact H1|]. split; [lia|]. split; [exact H7|]. split; [|discriminate].
  intros q Hq Hn D. destruct (H5 q Hq Hn) as [-> _]. apply same_fun_refl.
Qed.
(** setting the flags afterwards changes nothing of this *)
Lemma effect_flags m p m1 b1 e b : (p < nobjs m)%nat -> effect m p (m1, b1) -> effect m p (set_flags m1 p e b, b1).
Proof.
  intros Hp (H1 & H2 & H3 & H4 & H5). cbn [fst snd] in *.
  destruct (set_flags_spec m1 p e b H1 ltac:(lia)) as (K1 & K2 & K3 & K4 & K5 & K6 & K7 & K8).
  assert (SF : forall q, same_fun (obj_at (set_flags m1 p e b) q) (obj_at m1 q)).
  { intros q. destruct (Nat.eq_dec q p) as [->|Hn]; [rewrite K5; split; reflexivity|rewrite (K7 q Hn); apply same_fun_refl]. }
  unfold effect. cbn [fst snd]. split; [exact K1|]. split; [lia|].
  split; [intros k l Hk Hl Hn D; apply K8; [lia|lia|exact Hn|]; apply H3; assumption|]. split.
  - intros q Hq Hn D. eapply same_fun_trans; [apply SF|]. apply H4; assumption.
  - intros Hb q Hq. eapply same_fun_trans; [apply SF|]. apply H5; assumption.
Qed.

(** the number a row holds for column j *)
Definition rnth (row : list R) (j : nat) : R := match row with [a] => a | _ => nth j row 0 end.
Definition fits (row : list R) (m : nat) : Prop := length row = 1%nat \/ length row = m.

Lemma row_full (row : list R) (A : arr) :
  let row' := match row with [a] => map (fun _ => a) A | _ => row end in
  (length row' = length A <-> fits row (length A)) /\
  (forall j, (j < length A)%nat -> length row' = length A -> nth j row' 0 = rnth row j).
Proof.
  unfold fits, rnth. destruct row as [|a [|b row]]; cbv zeta.
  - cbn [length]. split; [split; [right; assumption|intros [H|H]; [discriminate|exact H]]|]. intros. reflexivity.
  - cbn [length]. split; [split; [left; reflexivity|intros _; apply map_length]|]. intros j Hj _.
    rewrite (nth_indep _ 0 ((fun _ : list R => a) [])) by (rewrite map_length; assumption). exact (map_nth (fun _ : list R => a) A [] j).
  - split; [split; [right; assumption|intros [H|H]; [discriminate|exact H]]|]. intros. reflexivity.
Qed.

Lemma combine_rect n A (row : list R) (g : list R -> R -> list R) : rect n A -> length row = length A ->
  (forall c a, length (g c a) = length c) -> rect n (map (fun '(c, a) => g c a) (combine A row)) /\
  length (map (fun '(c, a) => g c a) (combine A row)) = length A.
Proof.
  intros (H1 & H2 & H3) L Hg. assert (LL : length (map (fun '(c, a) => g c a) (combine A row)) = length A).
  { rewrite map_length, combine_length, L. apply Nat.min_id. }
  split; [|exact LL]. split; [exact H1|]. split.
  - intros E. rewrite E in LL. destruct A; [congruence|discriminate].
  - rewrite List.Forall_forall in *. intros d Hd. apply in_map_iff in Hd. destruct Hd as ((c, a) & <- & I). rewrite Hg. apply H3.
    exact (in_combine_l _ _ _ _ I).
Qed.

Lemma effect_row (g : list R -> R -> list R) m p row : mgood m -> (p < nobjs m)%nat -> (forall c a, length (g c a) = length c) ->
  let A := coef_of m p in
  let row' := match row with [a] => map (fun _ => a) A | _ => row end in
  let r := if Nat.eqb (length row') (length A) then
             fine (write m (ocols (objs m p)) (map (fun '(c, a) => g c a) (combine A row'))) else raised m in
  effect m p r /\ (snd r = false <-> fits row (ncols (obj_at m p))) /\
  (snd r = false -> ncols (obj_at (fst r) p) = ncols (obj_at m p) /\
     forall j, (j < ncols (obj_at m p))%nat -> nth j (coeffs (obj_at (fst r) p)) [] = g (nth j (coeffs (obj_at m p)) []) (rnth row j)).
Proof.
  intros G Hp Hg A row' r. destruct (row_full row A) as [RF RN]. fold row' in RF, RN.
  assert (W : rect (len (obj_at m p)) A) by (apply wf_rect; destruct (G p Hp) as (_ & _ & W); exact W).
  unfold r. destruct (Nat.eqb_spec (length row') (length A)) as [E|E].
  - destruct (combine_rect _ A row' g W E Hg) as [RC LC].
    destruct (effect_write m p _ G Hp RC LC) as [EF EC]. split; [exact EF|]. cbn [fine fst snd]. split.
    { split; intros _; [apply RF; exact E|reflexivity]. }
    intros _. split; [unfold ncols; rewrite EC; exact LC|]. intros j Hj. rewrite EC.
    rewrite (nth_map_combine_gen g A row' [] 0 []) by (auto; lia). rewrite RN by assumption. reflexivity.
  - split; [apply effect_raised; exact G|]. cbn [raised fst snd]. split; [|discriminate]. split; [discriminate|]. intros F. exfalso.
    apply E. apply RF. exact F.
Qed.

Lemma add_row_effect m p row : mgood m -> (p < nobjs m)%nat ->
  let r := h_add_row m p row in
  effect m p r /\ (snd r = false <-> fits row (ncols (obj_at m p))) /\
  (snd r = false -> ncols (obj_at (fst r) p) = ncols (obj_at m p) /\
     forall j x, (j < ncols (obj_at m p))%nat -> ev (obj_at (fst r) p) j x = ev (obj_at m p) j x + rnth row j).
Proof.
  intros G Hp r. destruct (effect_row (fun c a => upd c 0 (nth 0 c 0 + a)) m p row G Hp ltac:(intros; apply upd_length)) as (H1 & H2 & H3).
  split; [exact H1|]. split; [exact H2|]. intros Hb. destruct (H3 Hb) as [H4 H5]. split; [exact H4|]. intros j x Hj.
  assert (W : wf (obj_at m p)) by (destruct (G p Hp) as (_ & _ & W); exact W).
  unfold ev. assert (Q := H5 j Hj). change (h_add_row m p row) with r in Q. fold r in Q. etransitivity; [apply (f_equal (fun c => evalT c x) Q)|].
  cbv beta. rewrite evalT_upd0; [ring|]. rewrite (col_len (obj_at m p) j W Hj). apply len_pos. exact W.
Qed.
Lemma div_row_effect m p row : mgood m -> (p < nobjs m)%nat ->
  let r := h_div_row m p row in
  effect m p r /\ (snd r = false <-> fits row (ncols (obj_at m p))) /\
  (snd r = false -> ncols (obj_at (fst r) p) = ncols (obj_at m p) /\
     forall j x, (j < ncols (obj_at m p))%nat -> ev (obj_at (fst r) p) j x = ev (obj_at m p) j x / rnth row j).
Proof.
  intros G Hp r. destruct (effect_row (fun c a => map (fun v => v / a) c) m p row G Hp ltac:(intros; apply map_length)) as (H1 & H2 & H3).
  split; [exact H1|]. split; [exact H2|]. intros Hb. destruct (H3 Hb) as [H4 H5]. split; [exact H4|]. intros j x Hj.
  unfold ev. assert (Q := H5 j Hj). change (h_div_row m p row) with r in Q. fold r in Q. etransitivity; [apply (f_equal (fun c => evalT c x) Q)|].
  rewrite (evalT_map_scal (fun v => v / rnth row j) (/ rnth row j)); [unfold Rdiv; ring|]. intros b. unfold Rdiv. ring.
Qed.

(** ** addition of functions *)
(** a change of the representation only *)
Definition grow (m m1 : mem) : Prop :=
  mgood m1 /\ nobjs m1 = nobjs m /\ psep m m1 /\
  (forall k, (k < nobjs m)%nat -> same_fun (obj_at m1 k) (obj_at m k)).
Lemma grow_refl m : mgood m -> grow m m.
Proof. intros G. split; [exact G|]. split; [reflexivity|]. split; [intros k l _ _ _ D; exact D|intros; apply same_fun_refl]. Qed.

Lemma prolong_same f N : wf f -> (len f <= N)%nat -> same_fun (with_coeffs f (prolong (coeffs f) (Z.of_nat N))) f.
Proof.
  intros W H. unfold same_fun, ncols, ev. cbn [with_coeffs coeffs]. unfold prolong at 1. rewrite map_length. split; [reflexivity|].
  intros j x. destruct (Nat.lt_ge_cases j (ncols f)) as [Hj|Hj].
  - rewrite nth_prolong by exact Hj. apply prolong1_eval. rewrite col_len by assumption. lia.
  - rewrite !nth_overflow; [reflexivity|exact Hj|unfold prolong; rewrite map_length; exact Hj].
Qed.

Lemma grow_prolong m p N : mgood m -> (p < nobjs m)%nat -> (len (obj_at m p) <= N)%nat ->
  let m1 := rebind m p (prolong (coeffs (obj_at m p)) (Z.of_nat N)) in
  grow m m1 /\ obj_at m1 p = with_coeffs (obj_at m p) (prolong (coeffs (obj_at m p)) (Z.of_nat N)) /\
  (forall k, (k < nobjs m)%nat -> k <> p -> obj_at m1 k = obj_at m k).
Proof.
  intros G Hp HN m1. assert (W : wf (obj_at m p)) by (destruct (G p Hp) as (_ & _ & W); exact W).
  assert (RA : rect N (prolong (coeffs (obj_at m p)) (Z.of_nat N))).
  { apply (rect_prolong (len (obj_at m p))); [apply wf_rect; exact W|]. assert (L := len_pos _ W). lia. }
  destruct (rebind_spec m p _ N G Hp RA) as (H1 & H2 & H3 & H4 & H5 & H6 & H7). fold m1 in H1, H2, H3, H4, H5, H6, H7.
  assert (E : obj_at m1 p = with_coeffs (obj_at m p) (prolong (coeffs (obj_at m p)) (Z.of_nat N))) by exact H4.
  split; [|split; [exact E|intros k Hk Hn; apply (H5 k Hk Hn)]].
  split; [exact H1|]. split; [exact H2|]. split; [exact H7|].
  intros k Hk. destruct (Nat.eq_dec k p) as [->|Hn]; [rewrite E; apply prolong_same; assumption|].
  destruct (H5 k Hk Hn) as [-> _]. apply same_fun_refl.
Qed.

Lemma prolonged_mem m p q : mgood m -> (p < nobjs m)%nat -> (q < nobjs m)%nat ->
  let f := obj_at m p in let g := obj_at m q in
  let nf := nrows (coeffs f) in let no := nrows (coeffs g) in
  let m1 := if Nat.ltb no nf then rebind m q (prolong (coeffs g) (Z.of_nat nf))
            else if Nat.ltb nf no then rebind m p (prolong (coeffs f) (Z.of_nat no)) else m in
  grow m m1 /\ (obj_at m1 p, obj_at m1 q) = add_prolonged f g.
Proof.
  intros G Hp Hq f g nf no m1. unfold m1, add_prolonged. change (nrows (coeffs f)) with nf. change (nrows (coeffs g)) with no.
  destruct (Nat.ltb_spec no nf) as [H|H]; destruct (Nat.ltb_spec nf no) as [H'|H']; try lia.
  - assert (Hn : p <> q) by (intros ->; unfold nf, no, f, g in H; lia).
    destruct (grow_prolong m q nf G Hq) as (K1 & K2 & K3); [unfold len; fold g no; lia|]. cbv zeta in *. fold g in K1, K2, K3.
    split; [exact K1|]. rewrite K2, (K3 p Hp Hn). reflexivity.
  - assert (Hn : q <> p) by (intros ->; unfold nf, no, f, g in H'; lia).
    destruct (grow_prolong m p no G Hp) as (K1 & K2 & K3); [unfold len; fold f nf; lia|]. cbv zeta in *. fold f in K1, K2, K3.
    split; [exact K1|]. rewrite K2, (K3 q Hq Hn). reflexivity.
  - split; [apply grow_refl; exact G|]. reflexivity.
Qed.

Lemma grow_effect m m1 p r : (p < nobjs m)%nat -> grow m m1 -> effect m1 p r -> effect m p r.
Proof.
  intros Hp (G1 & G2 & G5 & G4) (H1 & H2 & H3 & H4 & H5). unfold effect. split; [exact H1|]. split; [lia|].
  split; [intros k l Hk Hl Hn D; apply H3; [lia|lia|exact Hn|]; apply G5; assumption|]. split.
  - intros q Hq Hn D. eapply same_fun_trans; [|apply G4; exact Hq]. apply H4; [lia|exact Hn|]. apply G5; assumption.
  - intros Hb q Hq. eapply same_fun_trans; [|apply G4; exact Hq]. apply H5; [exact Hb|lia].
Qed.

Lemma add_cols_some A B C : add_cols A B = Some C -> length B = length A \/ length B = 1%nat.
Proof.
  unfold add_cols. destruct (Nat.eqb_spec (length A) (length B)); [left; congruence|]. destruct B as [|d [|d' B]]; try discriminate.
  right; reflexivity.
Qed.

Lemma add_fun_effect m p q : mgood m -> (p < nobjs m)%nat -> (q < nobjs m)%nat ->
  let r := h_add_fun m p q in
  let f := obj_at m p in let g := obj_at m q in
  effect m p r /\ (snd r = false <-> (ncols g = ncols f \/ ncols g = 1%nat)) /\
  (snd r = false -> ncols (obj_at (fst r) p) = ncols f /\ eps (obj_at (fst r) p) = Rmax (eps f) (eps g) /\
     forall j x, (j < ncols f)%nat -> ev (obj_at (fst r) p) j x = ev f j x + ev g (bc (coeffs g) j) x).
Proof.
  intros G Hp Hq r f g. destruct (prolonged_mem m p q G Hp Hq) as [GR EP]. cbv zeta in GR, EP. fold f g in GR, EP.
  assert (Wf : wf f) by (destruct (G p Hp) as (_ & _ & W); exact W). assert (Wg : wf g) by (destruct (G q Hq) as (_ & _ & W); exact W).
  set (m1 := if Nat.ltb (nrows (coeffs g)) (nrows (coeffs f)) then rebind m q (prolong (coeffs g) (Z.of_nat (nrows (coeffs f))))
             else if Nat.ltb (nrows (coeffs f)) (nrows (coeffs g)) then rebind m p (prolong (coeffs f) (Z.of_nat (nrows (coeffs g)))) else m) in *.
  assert (Er : r = match add_cols (coeffs (obj_at m1 p)) (coeffs (obj_at m1 q)) with
                   | None => raised m1
                   | Some C => fine (set_flags (write m1 (ocols (objs m1 p)) C) p (Rmax (eps f) (eps g)) (ishappy f && ishappy g))
                   end) by reflexivity.
  destruct GR as (G1 & G2 & G3). assert (GR : grow m m1) by (split; [exact G1|split; [exact G2|exact G3]]).
  assert (Hp1 : (p < nobjs m1)%nat) by lia.
  assert (AP := add_prolonged_spec f g Wf Wg). rewrite <- EP in AP. destruct AP as (R1 & R2 & N1 & N2 & V1 & V2 & _).
  set (A := coeffs (obj_at m1 p)) in *. set (B := coeffs (obj_at m1 q)) in *.
  assert (LA : length A = ncols f) by exact N1. assert (LB : length B = ncols g) by exact N2.
  destruct (add_cols A B) as [C|] eqn:EA.
  - assert (HC : length B = length A \/ length B = 1%nat) by (exact (add_cols_some A B C EA)).
    destruct (iadd_correct f g Wf Wg) as (f' & g' & EI & W' & _ & NC & _ & VF & _); [lia|].
    destruct (add_cols_spec _ A B R1 R2 HC) as (C' & EC & RC & LC & _).
    assert (CC : C' = C) by congruence. subst C'.
    assert (F' : coeffs f' = C).
    { unfold iadd in EI. rewrite <- EP in EI. fold A B in EI. rewrite EA in EI. assert (Q := f_equal (option_map (fun p => coeffs (fst p))) EI).
      cbn [option_map fst coeffs] in Q. congruence. }
    assert (RC' : rect (len (obj_at m1 p)) C) by (unfold len; fold A; rewrite (rect_nrows _ A R1); exact RC).
    destruct (effect_write m1 p C G1 Hp1 RC') as [EW EV]; [exact LC|].
    rewrite Er. cbn [fine fst snd].
    assert (EF := effect_flags m1 p _ false (Rmax (eps f) (eps g)) (ishappy f && ishappy g) Hp1 EW).
    split; [apply (grow_effect m m1 p _ Hp GR EF)|]. split; [split; [intros _; lia|reflexivity]|]. intros _.
    destruct EW as (M1 & M2 & _). cbn [fine fst] in M1, M2.
    destruct (set_flags_spec _ p (Rmax (eps f) (eps g)) (ishappy f && ishappy g) M1 ltac:(lia)) as (_ & _ & _ & _ & K5 & _).
    rewrite K5, EV. split; [exact (eq_trans LC LA)|]. split; [reflexivity|].
    intros j x Hj. rewrite <- (VF j x Hj). unfold ev. cbn [coeffs]. rewrite F'. reflexivity.
  - rewrite Er. cbn [raised fst snd]. split; [apply (grow_effect m m1 p _ Hp GR), effect_raised; exact G1|].
    split; [|discriminate]. split; [discriminate|]. intros HC. exfalso.
    destruct (add_cols_spec _ A B R1 R2) as (C' & EC & _); [lia|]. congruence.
Qed.

Lemma sub_fun_effect m p q : mgood m -> (p < nobjs m)%nat -> (q < nobjs m)%nat ->
  let r := h_sub_fun m p q in
  let f := obj_at m p in let g := obj_at m q in
  effect m p r /\ (snd r = false <-> (ncols g = ncols f \/ ncols g = 1%nat)) /\
  (snd r = false -> ncols (obj_at (fst r) p) = ncols f /\ eps (obj_at (fst r) p) = Rmax (eps f) (eps g) /\
     forall j x, (j < ncols f)%nat -> ev (obj_at (fst r) p) j x = ev f j x - ev g (bc (coeffs g) j) x).
Proof.
  intros G Hp Hq r f g. assert (Wg : wf g) by (destruct (G q Hq) as (_ & _ & W); exact W).
  destruct (negative_correct g Wg) as (h & EN & Wh & NH & _ & EH & VH).
  destruct (new_cheb_spec m h G Wh) as (H1 & H2 & H3 & H4 & H5 & H6 & H7 & H8).
  set (m1 := fst (new_cheb m h)) in *. set (q1 := snd (new_cheb m h)) in *. cbv zeta in *.
  assert (Er : r = h_add_fun m1 p q1).
  { unfold r, h_sub_fun. change (read_obj m (objs m q)) with g. rewrite EN. unfold m1, q1. destruct (new_cheb m h); reflexivity. }
  destruct (add_fun_effect m1 p q1 H1 ltac:(lia) ltac:(lia)) as (K1 & K2 & K3). cbv zeta in K2, K3.
  rewrite <- Er in K1, K2, K3. destruct (H6 p Hp) as [E1 E2]. rewrite H5, E1 in K2, K3. fold f in K2, K3. rewrite NH in K2.
  split; [|split; [exact K2|]].
  - destruct K1 as (A1 & A2 & A3 & A4 & A5). split; [exact A1|]. split; [lia|].
    split; [intros k l Hk Hl Hn D; apply A3; [lia|lia|exact Hn|]; apply H8; assumption|]. split.
    + intros k Hk Hn D. destruct (H6 k Hk) as [F1 F2]. rewrite <- F1. apply A4; [lia|exact Hn|]. rewrite F2, E2. exact D.
    + intros Hb k Hk. destruct (H6 k Hk) as [F1 F2]. rewrite <- F1. apply A5; [exact Hb|lia].
  - intros Hb. destruct (K3 Hb) as (C1 & C2 & C3). split; [exact C1|]. split; [rewrite C2, EH; reflexivity|]. intros j x Hj.
    rewrite (C3 j x Hj). destruct (K2) as [KK _]. specialize (KK Hb).
    assert (EB : bc (coeffs h) j = bc (coeffs g) j) by (unfold bc; fold (ncols h) (ncols g); rewrite NH; reflexivity). rewrite EB.
    rewrite VH; [ring|]. unfold bc. fold (ncols g). destruct (Nat.eqb_spec (ncols g) 1); lia.
Qed.

(** ** products and quotients *)
(** the object p gets the coefficients of a function with new arrays *)
Lemma rebind_effect m p A n e b : mgood m -> (p < nobjs m)%nat -> rect n A ->
  let m' := set_flags (rebind m p A) p e b in
  effect m p (fine m') /\ coeffs (obj_at m' p) = A /\ eps (obj_at m' p) = e /\ ishappy (obj_at m' p) = b.
Proof.
  intros G Hp RA m'. assert (E := effect_rebind m p A n G Hp RA).
  assert (E' := effect_flags m p _ _ e b Hp E). split; [exact E'|].
  destruct (rebind_spec m p A n G Hp RA) as (H1 & H2 & _ & H4 & _).
  destruct (set_flags_spec (rebind m p A) p e b H1 ltac:(lia)) as (_ & _ & _ & _ & K5 & _).
  unfold m'. rewrite K5, H4. repeat split.
Qed.

Lemma mul_array_effect m p x1 X : mgood m -> (p < nobjs m)%nat -> wf x1 ->
  (same_shape (coeffs x1) X = true -> List.Forall (fun c => length c = nrows X) X) ->
  let r := h_mul_array m p x1 X in
  effect m p r /\ (snd r = true <-> multiply_array x1 X = None) /\
  (snd r = false -> exists h, multiply_array x1 X = Some h /\ wf h /\ same_fun (obj_at (fst r) p) h /\ eps (obj_at (fst r) p) = eps h).
Proof.
  intros G Hp W HX r. unfold r, h_mul_array, multiply_array.
  assert (Rx := wf_rect x1 W).
  destruct (Nat.eqb_spec (nrows X * length X) 1) as [E1|E1].
  - set (a := nth 0 (hd [] X) 0). unfold h_mul_number.
    assert (RA : rect (len x1) (map (map (fun c => c * a)) (coeffs x1))).
    { apply (rect_map (len x1)); [exact Rx|apply Rx|]. intros c Hc. rewrite map_length. exact Hc. }
    destruct (rebind_effect m p _ _ (eps x1) (ishappy x1) G Hp RA) as (H1 & H2 & H3 & _).
    destruct (multiply_number_correct x1 a W) as (h & EH & Wh & _ & _ & Eh & _).
    assert (CH : coeffs h = map (map (fun c => c * a)) (coeffs x1)).
    { unfold multiply_number in EH. destruct (cheb_init_some _ _ (eps x1) 1 maxLength_default (ishappy x1) RA) as [hp [EI _]].
      rewrite EI in EH. injection EH as <-. reflexivity. }
    rewrite EH. cbn [fine fst snd]. split; [exact H1|]. split; [split; discriminate|]. intros _. exists h.
    split; [reflexivity|]. split; [exact Wh|]. split; [|rewrite Eh; exact H3].
    split; [unfold ncols; rewrite H2, CH; reflexivity|]. intros j x. unfold ev. rewrite H2, CH. reflexivity.
  - destruct (same_shape (coeffs x1) X) eqn:SS.
    + assert (RA : rect (len x1) (map (fun '(c, d) => map (fun '(a, b) => a * b) (combine c d)) (combine (coeffs x1) X))).
      { specialize (HX eq_refl). unfold same_shape in SS. apply andb_true_iff in SS. destruct SS as [S1 S2]. apply Nat.eqb_eq in S1, S2.
        destruct Rx as (X1 & X2 & X3). split; [exact X1|]. split.
        - intros EE. apply (f_equal (@length _)) in EE. rewrite map_length, combine_length, S1, Nat.min_id in EE.
          destruct (coeffs x1); [congruence|]. cbn in S1, EE. lia.
        - rewrite List.Forall_forall in *. intros d Hd. apply in_map_iff in Hd. destruct Hd as ((c, c') & <- & I).
          rewrite map_length, combine_length. rewrite (X3 c (in_combine_l _ _ _ _ I)). rewrite (HX c' (in_combine_r _ _ _ _ I)).
          unfold len. rewrite S2. apply Nat.min_id. }
      destruct (rebind_effect m p _ _ (eps x1) (ishappy x1) G Hp RA) as (H1 & H2 & H3 & _).
      destruct (cheb_init_some _ _ (eps x1) 1 maxLength_default (ishappy x1) RA) as [hp [EI _]]. rewrite EI.
      cbn [fine fst snd]. split; [exact H1|]. split; [split; discriminate|]. intros _. eexists. split; [reflexivity|].
      split; [eexists; exact RA|]. split; [|exact H3].
      split; [unfold ncols; rewrite H2; reflexivity|]. intros j x. unfold ev. rewrite H2. reflexivity.
    + cbn [raised fst snd]. split; [apply effect_raised; exact G|]. split; [split; reflexivity|]. discriminate.
Qed.

Lemma mul_row_effect m p row : mgood m -> (p < nobjs m)%nat ->
  let r := h_mul_row m p row in
  effect m p r /\ (snd r = true <-> multiply_array (obj_at m p) [row] = None) /\
  (snd r = false -> exists h, multiply_array (obj_at m p) [row] = Some h /\ wf h /\ same_fun (obj_at (fst r) p) h /\ eps (obj_at (fst r) p) = eps h).
Proof.
  intros G Hp. apply mul_array_effect; [exact G|exact Hp| |].
  - destruct (G p Hp) as (_ & _ & W). exact W.
  - intros _. repeat constructor.
Qed.

Lemma multiply_wf f g h : wf f -> wf g -> (2 <= len f)%nat -> (2 <= len g)%nat -> multiply f g = Some h ->
  wf h /\ eps h = Rmax (eps f) (eps g).
Proof.
  intros Wf Wg Lf Lg E.
  destruct (Nat.eq_dec (ncols f) (ncols g)) as [C|C]; [|destruct (Nat.eq_dec (ncols f) 1) as [C1|C1]; [|destruct (Nat.eq_dec (ncols g) 1) as [C2|C2]]].
  1-3: destruct (multiply_correct f g Wf Wg Lf Lg) as (h' & q & E' & W' & _ & Ee & _); [tauto|]; assert (h' = h) by congruence; subst; auto.
  exfalso. unfold multiply in E. fold (len f) (len g) in E.
  destruct (Nat.eqb_spec (len f) 1); [lia|]. destruct (Nat.eqb_spec (len g) 1); [lia|].
  unfold bcast in E. unfold ncols in C, C1, C2. destruct (Nat.eqb_spec (length (coeffs f)) (length (coeffs g))); [lia|].
  destruct (coeffs f) as [|c1 [|c2 cs]]; destruct (coeffs g) as [|d1 [|d2 ds]]; cbn in C1, C2; try lia; discriminate.
Qed.

Lemma mul_fun_effect m p q : mgood m -> (p < nobjs m)%nat -> (q < nobjs m)%nat ->
  let r := h_mul_fun m p q in
  let f := obj_at m p in let g := obj_at m q in
  effect m p r /\ (snd r = true <-> multiply f g = None) /\
  (snd r = false -> exists h, multiply f g = Some h /\ wf h /\ same_fun (obj_at (fst r) p) h /\ eps (obj_at (fst r) p) = eps h).
Proof.
  intros G Hp Hq r f g.
  assert (Wf : wf f) by (destruct (G p Hp) as (_ & _ & W); exact W). assert (Wg : wf g) by (destruct (G q Hq) as (_ & _ & W); exact W).
  assert (Rf := wf_rect f Wf). assert (Rg := wf_rect g Wg). assert (Pf := len_pos f Wf). assert (Pg := len_pos g Wg).
  unfold r, h_mul_fun. change (read_obj m (objs m p)) with f. change (read_obj m (objs m q)) with g.
  destruct (Nat.eqb_spec (nrows (coeffs f)) 1) as [E1|E1].
  { assert (EM : multiply f g = multiply_array g (coeffs f)) by (unfold multiply; rewrite E1; reflexivity). rewrite EM.
    apply mul_array_effect; [exact G|exact Hp|exact Wg|]. intros _. apply Rf. }
  destruct (Nat.eqb_spec (nrows (coeffs g)) 1) as [E2|E2].
  { assert (EM : multiply f g = multiply_array f (coeffs g)).
    { unfold multiply. rewrite E2. destruct (Nat.eqb_spec (nrows (coeffs f)) 1); [contradiction|reflexivity]. }
    rewrite EM. apply mul_array_effect; [exact G|exact Hp|exact Wf|]. intros _. apply Rg. }
  destruct (multiply f g) as [h|] eqn:EM.
  - destruct (multiply_wf f g h Wf Wg) as [Wh Eh]; [unfold len in *; lia|unfold len in *; lia|exact EM|].
    destruct (rebind_effect m p _ _ (Rmax (eps f) (eps g)) (ishappy f && ishappy g) G Hp (wf_rect h Wh)) as (H1 & H2 & H3 & _).
    cbn [fine fst snd]. split; [exact H1|]. split; [split; discriminate|]. intros _. exists h. split; [reflexivity|]. split; [exact Wh|].
    split; [|rewrite Eh; exact H3]. split; [unfold ncols; rewrite H2; reflexivity|]. intros j x. unfold ev. rewrite H2. reflexivity.
  - cbn [raised fst snd]. split; [apply effect_raised; exact G|]. split; [split; reflexivity|]. discriminate.
Qed.

Lemma cheb_divide_wf f g h : wf f -> cheb_divide f g = Some h -> wf h /\ ncols h = ncols f.
Proof.
  intros Wf E. unfold cheb_divide in E. destruct (Nat.eqb_spec (length (coeffs f)) (length (coeffs g))) as [L|L]; [|discriminate].
  match type of E with construct ?ops ?e ?h0 ?ml ?ms = _ => destruct (construct_spec ops e h0 ml ms) as (h' & N & K & E' & W' & NC & _) end.
  - assert (C := ncols_wf f Wf). unfold ncols in C. destruct (coeffs f); [cbn in C; lia|]. destruct (coeffs g); [discriminate|discriminate].
  - apply initial_n_default.
  - assert (h' = h) by congruence. subst h'. split; [exact W'|]. rewrite NC, map_length, combine_length, <- L. apply Nat.min_id.
Qed.

Lemma div_fun_effect m p q : mgood m -> (p < nobjs m)%nat -> (q < nobjs m)%nat ->
  let r := h_div_fun m p q in
  let f := obj_at m p in let g := obj_at m q in
  effect m p r /\ (snd r = true <-> cheb_divide f g = None) /\
  (snd r = false -> exists h, cheb_divide f g = Some h /\ wf h /\ same_fun (obj_at (fst r) p) h /\ eps (obj_at (fst r) p) = eps f).
Proof.
  intros G Hp Hq r f g. assert (Wf : wf f) by (destruct (G p Hp) as (_ & _ & W); exact W).
  unfold r, h_div_fun. change (read_obj m (objs m p)) with f. change (read_obj m (objs m q)) with g.
  destruct (cheb_divide f g) as [h|] eqn:EM.
  - destruct (cheb_divide_wf f g h Wf EM) as [Wh _]. assert (Rh := wf_rect h Wh).
    destruct (rebind_spec m p _ _ G Hp Rh) as (_ & _ & _ & H4 & _).
    cbn [fine fst snd]. split; [exact (effect_rebind m p _ _ G Hp Rh)|]. split; [split; discriminate|]. intros _. exists h.
    split; [reflexivity|]. split; [exact Wh|]. rewrite H4. split; [|reflexivity]. split; reflexivity.
  - cbn [raised fst snd]. split; [apply effect_raised; exact G|]. split; [split; reflexivity|]. discriminate.
Qed.
