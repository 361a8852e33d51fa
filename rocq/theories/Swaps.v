(** minimumSwaps (linalg/helpers.py 11-26) returns the least number of swaps. *)
From Coq Require Import List Arith Lia Permutation.
From Verif Require Import Base LinModel SwapSpec.
Import ListNotations.

Definition tr (i j k : nat) : nat := if Nat.eqb k i then j else if Nat.eqb k j then i else k.
Lemma tr_lt n i j k : i < n -> j < n -> k < n -> tr i j k < n.
Proof. unfold tr. destruct (Nat.eqb k i), (Nat.eqb k j); lia. Qed.
Lemma swap_length l i j : length (swap_at l i j) = length l.
Proof. apply mk_length. Qed.
Lemma swap_nth l i j k : k < length l -> nth k (swap_at l i j) 0 = nth (tr i j k) l 0.
Proof. intros H. unfold swap_at. rewrite nth_mk by exact H. reflexivity. Qed.
Lemma nat_list_ext (a b : list nat) : length a = length b -> (forall k, k < length a -> nth k a 0 = nth k b 0) -> a = b.
Proof. intros H1 H2. apply (nth_ext _ _ 0 0 H1 H2). Qed.
Ltac trd := unfold tr in *; repeat match goal with |- context [Nat.eqb ?a ?b] => destruct (Nat.eqb_spec a b) | H : context [Nat.eqb ?a ?b] |- _ => destruct (Nat.eqb_spec a b) end; subst; try lia.
(** two exchanges commute after renaming the second one *)
Lemma swap_conj l p q i y : p < length l -> q < length l -> i < length l -> y < length l ->
  swap_at (swap_at l p q) i y = swap_at (swap_at l i y) (tr i y p) (tr i y q).
Proof.
  intros Hp Hq Hi Hy. apply nat_list_ext; [rewrite !swap_length; reflexivity|]. rewrite !swap_length. intros k Hk.
  rewrite (swap_nth (swap_at l p q)) by (rewrite swap_length; exact Hk). rewrite (swap_nth (swap_at l i y)) by (rewrite swap_length; exact Hk).
  rewrite !swap_nth by (repeat apply tr_lt; assumption). f_equal. trd.
Qed.

Definition inb (n : nat) (p : nat * nat) : Prop := fst p < n /\ snd p < n.
Definition proper (sw : list (nat * nat)) : Prop := Forall (fun p => fst p <> snd p) sw.
(** the exchange that puts i into place can be taken first *)
Lemma exchange n sw : forall l i y, length l = n -> Forall (inb n) sw -> i < n -> y < n -> i <> y -> nth y l 0 = i -> apply_swaps sw l = seq 0 n ->
  exists sw', Forall (inb n) sw' /\ apply_swaps sw' (swap_at l i y) = seq 0 n /\ S (length sw') <= length sw /\
    (proper sw -> proper sw' /\ S (length sw') = length sw).
Proof.
  induction sw as [|[p q] sw IH]; intros l i y Ll Hb Hi Hy Hne Hl Ha.
  - exfalso. cbn in Ha. rewrite Ha in Hl. rewrite seq_nth in Hl by exact Hy. lia.
  - inversion Hb as [|? ? [Hp Hq] Hb']; subst. cbn [fst snd] in Hp, Hq. change (apply_swaps sw (swap_at l p q) = seq 0 (length l)) in Ha. set (n := length l) in *.
    assert (Ls : length (swap_at l p q) = n) by apply swap_length.
    destruct (Nat.eq_dec p q) as [Epq|Npq].
    { subst q. assert (E : swap_at l p p = l). { apply nat_list_ext; [exact Ls|]. rewrite Ls. intros k Hk. rewrite swap_nth by exact Hk. f_equal. trd. }
      rewrite E in Ha. destruct (IH l (nth y l 0) y eq_refl Hb' Hi Hy Hne eq_refl Ha) as [sw' [A [B [C D]]]]. exists sw'. split; [exact A|]. split; [exact B|]. cbn [length]. split; [lia|].
      intros P. inversion P; subst. cbn in *. congruence. }
    destruct (Nat.eq_dec (tr p q y) y) as [Ey|Ny].
    + (* y is not touched *)
      assert (Hl' : nth y (swap_at l p q) 0 = nth y l 0) by (rewrite swap_nth by exact Hy; rewrite Ey; reflexivity).
      destruct (IH (swap_at l p q) (nth y l 0) y Ls Hb' Hi Hy Hne Hl' Ha) as [sw' [A [B [C D]]]].
      set (i := nth y l 0) in *. exists ((tr i y p, tr i y q) :: sw'). split; [|split; [|split]].
      * constructor; [split; cbn; apply tr_lt; assumption|exact A].
      * rewrite swap_conj in B by assumption. exact B.
      * cbn [length]. lia.
      * intros P. inversion P as [|? ? P1 P2]; subst. cbn in P1. destruct (D P2) as [D1 D2]. split; [|cbn [length]; lia]. constructor; [|exact D1]. cbn [fst snd]. clear - P1. trd.
    + (* the first exchange moves i from y to z *)
      set (z := tr p q y) in *. assert (Hz : z < n) by (apply tr_lt; assumption).
      assert (Hl' : nth z (swap_at l p q) 0 = nth y l 0). { rewrite swap_nth by exact Hz. f_equal. unfold z in *. clear - Npq. trd. }
      assert (Es : swap_at l p q = swap_at l y z). { apply nat_list_ext; [rewrite !swap_length; reflexivity|]. rewrite Ls. intros k Hk. rewrite !swap_nth by exact Hk. f_equal. unfold z in *. clear - Ny. trd. }
      destruct (Nat.eq_dec (nth y l 0) z) as [Ez|Nz].
      * exists sw. assert (E : swap_at l (nth y l 0) y = swap_at l p q). { rewrite Es, <- Ez. apply nat_list_ext; [rewrite !swap_length; reflexivity|]. rewrite swap_length. intros k Hk. rewrite !swap_nth by exact Hk. f_equal. clear. trd. }
        rewrite E. split; [exact Hb'|]. split; [exact Ha|]. cbn [length]. split; [lia|]. intros P. inversion P; subst. split; [assumption|reflexivity].
      * destruct (IH (swap_at l p q) (nth y l 0) z Ls Hb' Hi Hz Nz Hl' Ha) as [sw' [A [B [C D]]]].
        set (i := nth y l 0) in *. exists ((y, z) :: sw'). split; [|split; [|split]].
        -- constructor; [split; assumption|exact A].
        -- change (apply_swaps sw' (swap_at (swap_at l i y) y z) = seq 0 n). rewrite <- B. f_equal. rewrite Es.
           apply nat_list_ext; [rewrite !swap_length; reflexivity|]. rewrite !swap_length. fold n. intros k Hk.
           rewrite (swap_nth (swap_at l i y)), (swap_nth (swap_at l y z)) by (rewrite swap_length; exact Hk). rewrite !swap_nth by (apply tr_lt; assumption). f_equal. clear - Ny Nz Hne. clearbody z i. trd.
        -- cbn [length]. lia.
        -- intros P. inversion P as [|? ? P1 P2]; subst. destruct (D P2) as [D1 D2]. split; [|cbn [length]; lia]. constructor; [cbn [fst snd]; congruence|exact D1].
Qed.
(** proper exchanges that restore 0..n-1 are even in number *)
Lemma even_id n : forall k sw, length sw <= k -> Forall (inb n) sw -> proper sw -> apply_swaps sw (seq 0 n) = seq 0 n -> Nat.odd (length sw) = false.
Proof.
  induction k as [|k IH]; intros sw Hk Hb P Ha; [destruct sw; [reflexivity|cbn in Hk; lia]|].
  destruct sw as [|[p q] sw]; [reflexivity|]. inversion Hb as [|? ? [Hp Hq] Hb']; subst. inversion P as [|? ? P1 P2]; subst. cbn [fst snd] in *.
  change (apply_swaps sw (swap_at (seq 0 n) p q) = seq 0 n) in Ha.
  assert (Ln : length (seq 0 n) = n) by apply seq_length.
  destruct (exchange n sw (swap_at (seq 0 n) p q) p q) as [sw' [A [B [C D]]]]; try assumption.
  - rewrite swap_length. exact Ln.
  - rewrite swap_nth by lia. assert (E : tr p q q = p) by trd. rewrite E. rewrite seq_nth by exact Hp. reflexivity.
  - destruct (D P2) as [D1 D2]. assert (E : swap_at (swap_at (seq 0 n) p q) p q = seq 0 n).
    { apply nat_list_ext; [rewrite !swap_length; reflexivity|]. rewrite !swap_length, Ln. intros k0 H. rewrite swap_nth by (rewrite swap_length; lia). rewrite swap_nth by (rewrite Ln; apply tr_lt; assumption). f_equal. trd. }
    rewrite E in B. cbn [length]. rewrite <- D2. rewrite Nat.odd_succ, <- Nat.negb_odd, Nat.odd_succ, <- Nat.negb_odd. rewrite (IH sw'); [reflexivity| | | |]; try assumption. cbn [length] in Hk. lia.
Qed.

Record inv (n i : nat) (a : nat -> nat) (b : nat -> option nat) (l : list nat) : Prop := {
  i0 : length l = n;
  i1 : forall k, i <= k < n -> a k = nth k l 0;
  i2 : forall k, k < i -> nth k l 0 = k;
  i3 : forall v, i <= v < n -> exists y, y < n /\ b v = Some y /\ nth y l 0 = v;
  i4 : forall j k, j < n -> k < n -> nth j l 0 = nth k l 0 -> j = k }.

Lemma loop_correct n m : forall i a b count l, i + m = n -> inv n i a b l ->
  exists c, swaps_loop (seq i m) a b count = Some (count + c) /\
    (exists sw, length sw = c /\ Forall (inb n) sw /\ apply_swaps sw l = seq 0 n) /\
    (forall sw, Forall (inb n) sw -> apply_swaps sw l = seq 0 n -> c <= length sw /\ (proper sw -> Nat.odd (length sw) = Nat.odd c)).
Proof.
  induction m as [|m IH]; intros i a b count l Him [I0 I1 I2 I3 I4].
  - assert (E : l = seq 0 n). { apply nat_list_ext; [rewrite seq_length; exact I0|]. rewrite I0. intros k Hk. rewrite seq_nth by exact Hk. apply I2. lia. }
    exists 0. split; [cbn; f_equal; lia|]. split; [exists []; repeat split; [constructor|exact E]|].
    intros sw Hb Ha. split; [lia|]. intros P. rewrite E in Ha. apply (even_id n (length sw) sw); auto.
  - cbn [seq swaps_loop]. assert (Ea : a i = nth i l 0) by (apply I1; lia).
    destruct (Nat.eqb_spec (a i) i) as [E|E].
    + apply IH; [lia|]. split; auto.
      * intros k Hk. apply I1. lia.
      * intros k Hk. destruct (Nat.eq_dec k i); [subst; congruence|apply I2; lia].
      * intros v Hv. apply I3. lia.
    + destruct (I3 i ltac:(lia)) as [y [Hy [Hb Hl]]]. rewrite Hb.
      assert (Hne : i <> y) by congruence.
      assert (Hyi : i < y). { destruct (Nat.lt_ge_cases y i) as [H|H]; [|lia]. rewrite (I2 y H) in Hl. lia. }
      assert (Hi : i < n) by lia.
      assert (Hinv : inv n (S i) (upd a y (a i)) (upd b (a i) (Some y)) (swap_at l i y)).
      { split.
        - rewrite swap_length. exact I0.
        - intros k Hk. rewrite swap_nth by lia. unfold upd. destruct (Nat.eqb_spec k y) as [Ek|Ek].
          + subst k. rewrite Ea. f_equal. trd.
          + rewrite I1 by lia. f_equal. trd.
        - intros k Hk. rewrite swap_nth by lia. destruct (Nat.eq_dec k i) as [Ek|Ek]; [subst k; assert (tr i y i = y) as -> by trd; exact Hl|].
          assert (tr i y k = k) as -> by trd. apply I2. lia.
        - intros v Hv. unfold upd. destruct (Nat.eqb_spec v (a i)) as [Ev|Ev].
          + exists y. split; [exact Hy|]. split; [reflexivity|]. rewrite swap_nth by lia. assert (tr i y y = i) as -> by trd. congruence.
          + destruct (I3 v ltac:(lia)) as [z [Hz [Hbz Hlz]]]. exists z. split; [exact Hz|]. split; [exact Hbz|]. rewrite swap_nth by lia.
            assert (z <> i) by congruence. assert (z <> y). { intros ->. lia. } assert (tr i y z = z) as -> by trd. exact Hlz.
        - intros j k Hj Hk. rewrite !swap_nth by lia. intros Ej. apply I4 in Ej; try (apply tr_lt; assumption). clear - Ej. trd. }
      destruct (IH (S i) _ _ (count + 1) _ ltac:(lia) Hinv) as [c [H1 [[sw [S1 [S2 S3]]] H3]]].
      exists (S c). split; [rewrite H1; f_equal; lia|]. split.
      * exists ((i, y) :: sw). split; [cbn; lia|]. split; [constructor; [split; assumption|exact S2]|exact S3].
      * intros sw' Hb' Ha'. destruct (exchange n sw' l i y I0 Hb' Hi Hy Hne Hl Ha') as [sw'' [A [B [C D]]]]. destruct (H3 sw'' A B) as [G1 G2]. split; [lia|].
        intros P. destruct (D P) as [D1 D2]. rewrite <- D2. rewrite Nat.odd_succ, <- Nat.negb_odd, (G2 D1), Nat.negb_odd, Nat.odd_succ. reflexivity.
Qed.

Lemma inv_dict_get (l : list nat) (HN : NoDup l) k : k < length l -> inv_dict l (nth k l 0) = Some k.
Proof.
  unfold inv_dict.
  assert (G : forall l (i : nat) (f : nat -> option nat) v, (forall j, j < length l -> nth j l 0 <> v) ->
     fold_left (fun b kv => upd b (snd kv) (Some (fst kv))) (combine (seq i (length l)) l) f v = f v).
  { clear. induction l as [|x l IH]; intros i f v H; [reflexivity|]. cbn. rewrite IH.
    - unfold upd. destruct (Nat.eqb_spec v x) as [E|E]; [|reflexivity]. exfalso. apply (H 0); [cbn; lia|symmetry; exact E].
    - intros j Hj. apply (H (S j)). cbn; lia. }
  assert (G2 : forall l (i : nat) (f : nat -> option nat) k, NoDup l -> k < length l ->
     fold_left (fun b kv => upd b (snd kv) (Some (fst kv))) (combine (seq i (length l)) l) f (nth k l 0) = Some (i + k)).
  { clear l HN k. induction l as [|x l IH]; intros i f k HN Hk; [cbn in Hk; lia|]. inversion HN as [|? ? Hx HN']; subst. destruct k as [|k].
    - cbn. rewrite G; [unfold upd; rewrite Nat.eqb_refl; f_equal; lia|]. intros j Hj E. apply Hx. rewrite <- E. apply nth_In, Hj.
    - cbn [length seq combine fold_left nth]. rewrite IH; [f_equal; lia|exact HN'|cbn in Hk; lia]. }
  intros Hk. rewrite G2 by assumption. reflexivity.
Qed.

Lemma minimumSwaps_correct : forall l : list nat, Permutation (seq 0 (length l)) l ->
  exists c, minimumSwaps l = Some c /\
    (exists sw, length sw = c /\ sorts sw l) /\
    (forall sw, sorts sw l -> c <= length sw) /\
    (forall sw, sorts sw l -> Forall (fun p => fst p <> snd p) sw -> Nat.odd (length sw) = Nat.odd c).
Proof.
  intros l HP. set (n := length l).
  assert (HN : NoDup l) by (apply (Permutation_NoDup HP), seq_NoDup).
  assert (Hinv : inv n 0 (fun k => nth k l 0) (inv_dict l) l).
  { split; auto; try lia.
    - intros v Hv. assert (Hin : In v l). { apply (Permutation_in _ HP). apply in_seq. unfold n in Hv. lia. }
      destruct (In_nth l v 0 Hin) as [y [Hy E]]. exists y. split; [exact Hy|]. split; [|exact E]. rewrite <- E. apply inv_dict_get; assumption.
    - intros j k Hj Hk E. apply (proj1 (NoDup_nth l 0) HN); assumption. }
  destruct (loop_correct n n 0 _ _ 0 l eq_refl Hinv) as [c [H1 [[sw [S1 [S2 S3]]] H3]]].
  exists c. split; [exact H1|]. split; [exists sw; split; [exact S1|split; assumption]|].
  split; intros sw' [Hb Ha]; [apply H3; assumption|]. intros P. apply H3; assumption.
Qed.
