(** C195: in-place arithmetic of ordinary functions, in programs that make and share functions. *)
From Coq Require Import Reals ZArith List Arith Lia Lra Bool.
From Verif Require Import Base ChebSpec ChebModel ChebModel2 FunModel DivModel ChebEval ChebDct ChebCalc ChebObj ChebArith ChebMulObj ChebConstr NormThm FunProofs NormSob HeapModel HeapProofs.
Import ListNotations.
Open Scope R_scope.

(** two functions of the user are the same function *)
Definition alike (F G : Fun) : Prop :=
  dom0 F = dom0 G /\ dom1 F = dom1 G /\ fcols F = fcols G /\ forall j x, fev F j x = fev G j x.
Definition Fzero : Fun := mkFun (mkCheb [] 0 0 0%Z false) 0 0.
(** the k-th function of a program *)
Definition fn (s : state) (k : nat) : Fun := nth k (shown s) Fzero.
Definition nfun (s : state) : nat := length (shown s).
(** expressions give functions *)
Definition honest (c : stmt) : Prop :=
  match c with Expr e => forall l F, List.Forall fwf l -> e l = Some F -> fwf F | _ => True end.
(** which functions stem from which: +f, f**1, copy.copy(f), f[k] and np.real(f) stem from f; expressions are new *)
Definition parent (c : stmt) (org : list nat) : nat :=
  match c with Same i => nth i org 0%nat | Col i _ => nth i org 0%nat | RealPart i => nth i org 0%nat | _ => length org end.
Definition org_step (so : state * list nat) (c : stmt) : state * list nat :=
  let s' := fst (exec (fst so) c) in
  (s', if Nat.ltb (nfun (fst so)) (nfun s') then snd so ++ [parent c (snd so)] else snd so).
Definition origins (cs : list stmt) : list nat := snd (fold_left org_step cs (start, [])).
Definition origin (cs : list stmt) (k : nat) : nat := nth k (origins cs) 0%nat.

(** ** the invariant of a program *)
Definition rok (m : mem) (r : fref) : Prop := (rfun r < nobjs m)%nat /\ ra r < rb r.
Definition sok (s : state) : Prop := mgood (fst s) /\ List.Forall (rok (fst s)) (snd s).
Definition dref : fref := mkRef 0 0 0.
Definition oapart (s : state) (org : list nat) : Prop :=
  length org = length (snd s) /\ List.Forall (fun a => (a < length org)%nat) org /\
  forall k l, (k < length org)%nat -> (l < length org)%nat -> nth k org 0%nat <> nth l org 0%nat ->
    rfun (nth k (snd s) dref) <> rfun (nth l (snd s) dref) /\
    disjoint (ocols (objs (fst s) (rfun (nth k (snd s) dref)))) (ocols (objs (fst s) (rfun (nth l (snd s) dref)))).

Lemma nfun_vs s : nfun s = length (snd s).
Proof. unfold nfun, shown. apply map_length. Qed.
Lemma fn_read s k : (k < nfun s)%nat -> fn s k = read (fst s) (nth k (snd s) dref).
Proof.
  intros H. rewrite nfun_vs in H. unfold fn, shown. rewrite (nth_indep _ Fzero (read (fst s) dref)) by (rewrite map_length; exact H).
  apply map_nth.
Qed.
Lemma alike_refl F : alike F F.
Proof. repeat split. Qed.
Lemma read_alike m m' r : same_fun (obj_at m' (rfun r)) (obj_at m (rfun r)) -> alike (read m' r) (read m r).
Proof.
  intros [H1 H2]. split; [reflexivity|]. split; [reflexivity|]. split; [exact H1|]. intros j x. unfold fev. cbn [read onefun dom0 dom1]. apply H2.
Qed.
Lemma sok_nth s k : sok s -> (k < nfun s)%nat -> (rfun (nth k (snd s) dref) < nobjs (fst s))%nat /\ ra (nth k (snd s) dref) < rb (nth k (snd s) dref).
Proof. intros [_ F] H. rewrite nfun_vs in H. rewrite List.Forall_forall in F. apply F. apply nth_In. exact H. Qed.
Lemma sok_fwf s k : sok s -> (k < nfun s)%nat -> fwf (fn s k).
Proof.
  intros S H. destruct (sok_nth s k S H) as [H1 H2]. rewrite (fn_read s k H). split; [|exact H2].
  destruct S as [G _]. destruct (G _ H1) as (_ & _ & W). exact W.
Qed.

(** every in-place statement *)
Definition operand_ok (s : state) (g : operand) : Prop := match g with OFun j => (j < nfun s)%nat | ORow _ => True end.
Lemma in_place_effect s op i g : sok s -> (i < nfun s)%nat -> operand_ok s g ->
  effect (fst s) (rfun (nth i (snd s) dref)) (in_place (fst s) (snd s) op i g).
Proof.
  intros S Hi Hg. destruct (sok_nth s i S Hi) as [P1 _]. destruct S as [G F]. unfold in_place. fold dref.
  destruct g as [j|row].
  - destruct (sok_nth s j (conj G F) Hg) as [P2 _]. destruct (dom_check _ _); [|apply effect_raised; exact G].
    destruct op; [apply add_fun_effect|apply sub_fun_effect|apply mul_fun_effect|apply div_fun_effect]; assumption.
  - destruct op; [apply add_row_effect|apply add_row_effect|apply mul_row_effect|apply div_row_effect]; assumption.
Qed.
Lemma exec_do s op i g : (i < nfun s)%nat -> operand_ok s g ->
  exec s (Do op i g) = ((fst (in_place (fst s) (snd s) op i g), snd s), snd (in_place (fst s) (snd s) op i g)).
Proof.
  intros Hi Hg. destruct s as [m vs]. cbn [exec fst snd]. rewrite nfun_vs in Hi. cbn [snd] in Hi.
  destruct (Nat.ltb_spec i (length vs)); [|lia].
  assert (E : (match g with OFun j => Nat.ltb j (length vs) | ORow _ => true end) = true).
  { destruct g as [j|]; [|reflexivity]. unfold operand_ok in Hg. rewrite nfun_vs in Hg. cbn [snd] in Hg. apply Nat.ltb_lt. exact Hg. }
  rewrite E. cbn [andb]. destruct (in_place m vs op i g). reflexivity.
Qed.

Lemma operand_dec s g : operand_ok s g \/ ~ operand_ok s g.
Proof. destruct g; cbn; lia. Qed.
Lemma exec_do_bad s op i g : ~ operand_ok s g -> exec s (Do op i g) = (s, true).
Proof.
  intros D. destruct g as [j|]; [|contradiction D; exact I]. unfold operand_ok in D. rewrite nfun_vs in D. destruct s as [m vs]. cbn [exec fst snd] in *.
  destruct (Nat.ltb_spec j (length vs)); [lia|]. rewrite andb_false_r. reflexivity.
Qed.

Lemma new_view_spec m l e h ml hp m1 p : mgood m -> List.Forall (fun c => (c < ncells m)%nat) l -> NoDup l ->
  (exists n, rect n (map (cells m) l)) -> new_view m l e h ml hp = Some (m1, p) ->
  mgood m1 /\ nobjs m1 = S (nobjs m) /\ p = nobjs m /\ cells m1 = cells m /\ ocols (objs m1 p) = l /\
  (forall q, (q < nobjs m)%nat -> objs m1 q = objs m q).
Proof.
  intros G B N [n RA] E. unfold new_view in E. destruct (cheb_init_some n _ e h ml hp RA) as [hp' [EI _]]. rewrite EI in E.
  cbn [eps hscale maxLength ishappy] in E. set (o := mkObj l e h ml hp') in E.
  assert (GO : ogood m o) by (split; [exact B|]; split; [exact N|]; exists n; exact RA).
  destruct (new_obj_spec m o G GO) as (H1 & H2 & H3 & H4 & H5 & H6 & H7). assert (E' : new_obj m o = (m1, p)) by congruence.
  rewrite E' in *. cbn [fst snd] in *. split; [exact H1|]. split; [exact H2|]. split; [exact H3|]. split; [exact H5|].
  split; [rewrite H6; reflexivity|exact H7].
Qed.

(** the new function is the last one, the old ones are as they were *)
Definition extends (s s' : state) (r : fref) : Prop :=
  snd s' = snd s ++ [r] /\ (nobjs (fst s) <= nobjs (fst s'))%nat /\ mgood (fst s') /\ rok (fst s') r /\
  (forall q, (q < nobjs (fst s))%nat -> objs (fst s') q = objs (fst s) q /\ obj_at (fst s') q = obj_at (fst s) q).

Lemma rect_of_wf m o : wf (read_obj m o) -> exists n, rect n (map (cells m) (ocols o)).
Proof. intros [n H]. exists n. exact H. Qed.

Definition oc (s : state) (r : fref) : list nat := ocols (objs (fst s) (rfun r)).

Lemma exec_expr s e F : sok s -> fwf F -> e (shown s) = Some F ->
  exists r, snd (exec s (Expr e)) = false /\ extends s (fst (exec s (Expr e))) r /\ read (fst (fst (exec s (Expr e)))) r = F /\
  rfun r = nobjs (fst s) /\ forall c, In c (oc (fst (exec s (Expr e))) r) -> (ncells (fst s) <= c)%nat.
Proof.
  intros S [WF WD] E. destruct s as [m vs]. cbn [exec]. change (map (read m) vs) with (shown (m, vs)). rewrite E.
  destruct S as [G FV]. cbn [fst snd] in *. destruct (new_cheb_spec m (onefun F) G WF) as (H1 & H2 & H3 & H4 & H5 & H6 & H7 & _).
  destruct (new_cheb m (onefun F)) as [m1 p]. cbn [fst snd] in *. exists (mkRef p (dom0 F) (dom1 F)).
  split; [reflexivity|]. split.
  - split; [reflexivity|]. cbn [fst snd]. split; [lia|]. split; [exact H1|]. split; [split; cbn [rfun ra rb]; [lia|exact WD]|].
    intros q Hq. destruct (H6 q Hq) as [Q1 Q2]. split; assumption.
  - split; [|split; [exact H3|exact H7]]. unfold read. cbn [rfun ra rb]. fold (obj_at m1 p). rewrite H5. destruct F; reflexivity.
Qed.

Lemma exec_same s i : sok s -> (i < nfun s)%nat ->
  snd (exec s (Same i)) = false /\ extends s (fst (exec s (Same i))) (nth i (snd s) dref).
Proof.
  intros S Hi. assert (R := sok_nth s i S Hi). destruct s as [m vs]. rewrite nfun_vs in Hi. cbn [exec fst snd] in *.
  rewrite (nth_error_nth' vs dref Hi). split; [reflexivity|]. split; [reflexivity|]. cbn [fst snd]. split; [lia|].
  split; [apply S|]. split; [exact R|]. intros q Hq. split; reflexivity.
Qed.

Lemma exec_view s (l : nat -> list nat) c i (h : R) : sok s -> (i < nfun s)%nat ->
  let r0 := nth i (snd s) dref in let o := objs (fst s) (rfun r0) in
  incl (l i) (ocols o) -> NoDup (l i) -> l i <> [] ->
  exec s c = (match new_view (fst s) (l i) (oeps o) h (omax o) (ohappy o) with
              | None => (s, true)
              | Some (m1, p) => ((m1, snd s ++ [mkRef p (ra r0) (rb r0)]), false)
              end) ->
  exists r, snd (exec s c) = false /\ extends s (fst (exec s c)) r /\ oc (fst (exec s c)) r = l i /\
    cells (fst (fst (exec s c))) = cells (fst s) /\ rfun r = nobjs (fst s) /\ ra r = ra r0 /\ rb r = rb r0.
Proof.
  intros S Hi r0 o Hincl N Hne E. destruct (sok_nth s i S Hi) as [P1 P2]. fold r0 in P1, P2. destruct S as [G FV].
  destruct (G _ P1) as (B & _ & W). fold o in B, W. destruct W as [n (R1 & R2 & R3)]. cbn [read_obj coeffs] in R2, R3.
  assert (RA : rect n (map (cells (fst s)) (l i))).
  { split; [exact R1|]. split; [intros Q; apply Hne; destruct (l i); [reflexivity|discriminate]|].
    rewrite List.Forall_forall in *. intros d Hd. apply in_map_iff in Hd. destruct Hd as (c0 & <- & I). apply R3. apply in_map. apply Hincl. exact I. }
  destruct (new_view (fst s) (l i) (oeps o) h (omax o) (ohappy o)) as [[m1 p]|] eqn:EV.
  - assert (BB : List.Forall (fun c0 => (c0 < ncells (fst s))%nat) (l i)).
    { apply List.Forall_forall. intros c0 I. rewrite List.Forall_forall in B. apply B, Hincl, I. }
    destruct (new_view_spec _ _ _ _ _ _ m1 p G BB N (ex_intro _ n RA) EV) as (H1 & H2 & H3 & H4 & H5 & H6).
    rewrite E. cbn [fst snd]. exists (mkRef p (ra r0) (rb r0)). split; [reflexivity|]. split; [|split; [exact H5|split; [exact H4|auto]]].
      split; [reflexivity|]. cbn [fst snd]. split; [lia|]. split; [exact H1|]. split; [split; cbn [rfun ra rb]; [lia|exact P2]|].
      intros q Hq. split; [apply H6; exact Hq|]. unfold obj_at. rewrite (H6 q Hq). unfold read_obj. rewrite H4. reflexivity.
  - exfalso. unfold new_view in EV. destruct (cheb_init_some n _ (oeps o) h (omax o) (ohappy o) RA) as [hp' [EI _]]. rewrite EI in EV. discriminate.
Qed.

Lemma exec_col s i k : sok s -> (i < nfun s)%nat -> (k < fcols (fn s i))%nat ->
  exists r, snd (exec s (Col i k)) = false /\ extends s (fst (exec s (Col i k))) r /\
    oc (fst (exec s (Col i k))) r = [nth k (oc s (nth i (snd s) dref)) 0%nat] /\
    cells (fst (fst (exec s (Col i k)))) = cells (fst s) /\ rfun r = nobjs (fst s) /\ ra r = ra (nth i (snd s) dref) /\ rb r = rb (nth i (snd s) dref).
Proof.
  intros S Hi Hk. rewrite (fn_read s i Hi) in Hk. unfold fcols, ncols, read in Hk. cbn [onefun read_obj coeffs] in Hk. rewrite map_length in Hk.
  apply (exec_view s (fun _ => [nth k (oc s (nth i (snd s) dref)) 0%nat]) (Col i k) i 1 S Hi).
  - intros c [<-|[]]. apply nth_In. exact Hk.
  - repeat constructor. intros [].
  - discriminate.
  - destruct s as [m vs]. rewrite nfun_vs in Hi. cbn [exec fst snd] in *. rewrite (nth_error_nth' vs dref Hi).
    rewrite (nth_error_nth' _ 0%nat Hk). reflexivity.
Qed.
Lemma exec_real s i : sok s -> (i < nfun s)%nat ->
  exists r, snd (exec s (RealPart i)) = false /\ extends s (fst (exec s (RealPart i))) r /\
    oc (fst (exec s (RealPart i))) r = oc s (nth i (snd s) dref) /\
    cells (fst (fst (exec s (RealPart i)))) = cells (fst s) /\ rfun r = nobjs (fst s) /\ ra r = ra (nth i (snd s) dref) /\ rb r = rb (nth i (snd s) dref).
Proof.
  intros S Hi. destruct (sok_nth s i S Hi) as [P1 _]. assert (GG := proj1 S _ P1). destruct GG as (_ & N & W).
  apply (exec_view s (fun _ => oc s (nth i (snd s) dref)) (RealPart i) i (ohscale (objs (fst s) (rfun (nth i (snd s) dref)))) S Hi).
  - intros c I. exact I.
  - exact N.
  - intros Q. destruct W as [n (_ & W & _)]. apply W. cbn [read_obj coeffs]. unfold oc in Q. rewrite Q. reflexivity.
  - destruct s as [m vs]. rewrite nfun_vs in Hi. cbn [exec fst snd] in *. rewrite (nth_error_nth' vs dref Hi). reflexivity.
Qed.

(** a statement either leaves the state alone, makes a function, or works in place *)
Lemma exec_cases s c : sok s -> honest c ->
  (fst (exec s c) = s) \/
  (exists r, extends s (fst (exec s c)) r /\
     ((exists e, c = Expr e) /\ rfun r = nobjs (fst s) /\ (forall x, In x (oc (fst (exec s c)) r) -> (ncells (fst s) <= x)%nat)
      \/ exists i, (i < nfun s)%nat /\ parent c = (fun org => nth i org 0%nat) /\ incl (oc (fst (exec s c)) r) (oc s (nth i (snd s) dref)) /\
         (r = nth i (snd s) dref \/ rfun r = nobjs (fst s)))) \/
  (exists op i g, c = Do op i g /\ (i < nfun s)%nat /\ operand_ok s g).
Proof.
  intros S H. destruct c as [e|i|i k|i|op i g].
  - destruct (e (shown s)) as [F|] eqn:E.
    + right; left. destruct (exec_expr s e F S) as (r & _ & H2 & _ & H4 & H5); [|exact E|].
      * apply (H (shown s) F); [|exact E]. apply List.Forall_forall. intros G I. destruct (In_nth _ _ Fzero I) as (k & Hk & <-).
        apply (sok_fwf s k S). exact Hk.
      * exists r. split; [exact H2|]. left. split; [exists e; reflexivity|]. split; assumption.
    + left. destruct s as [m vs]. cbn [exec]. change (map (read m) vs) with (shown (m, vs)). rewrite E. reflexivity.
  - destruct (Nat.lt_ge_cases i (nfun s)) as [Hi|Hi].
    + right; left. destruct (exec_same s i S Hi) as [_ H2]. eexists. split; [exact H2|]. right. exists i. split; [exact Hi|]. split; [reflexivity|].
      split; [|left; reflexivity]. intros x I. destruct H2 as (_ & _ & _ & _ & Q). destruct (sok_nth s i S Hi) as [P _]. unfold oc in *. rewrite (proj1 (Q _ P)) in I. exact I.
    + left. rewrite nfun_vs in Hi. destruct s as [m vs]. cbn [exec fst snd] in *. rewrite (proj2 (nth_error_None vs i) Hi). reflexivity.
  - destruct (Nat.lt_ge_cases i (nfun s)) as [Hi|Hi]; [destruct (Nat.lt_ge_cases k (fcols (fn s i))) as [Hk|Hk]|].
    + right; left. destruct (exec_col s i k S Hi Hk) as (r & _ & H2 & H3 & _ & H4 & _). exists r. split; [exact H2|]. right. exists i.
      split; [exact Hi|]. split; [reflexivity|]. split; [|right; exact H4]. rewrite H3. intros x [<-|[]]. apply nth_In.
      rewrite (fn_read s i Hi) in Hk. unfold fcols, ncols, read in Hk. cbn [onefun read_obj coeffs] in Hk. rewrite map_length in Hk. exact Hk.
    + left. rewrite (fn_read s i Hi) in Hk. unfold fcols, ncols, read in Hk. cbn [onefun read_obj coeffs] in Hk. rewrite map_length in Hk.
      rewrite nfun_vs in Hi. destruct s as [m vs]. cbn [exec fst snd] in *. rewrite (nth_error_nth' vs dref Hi).
      rewrite (proj2 (nth_error_None _ k) Hk). reflexivity.
    + left. rewrite nfun_vs in Hi. destruct s as [m vs]. cbn [exec fst snd] in *. rewrite (proj2 (nth_error_None vs i) Hi). reflexivity.
  - destruct (Nat.lt_ge_cases i (nfun s)) as [Hi|Hi].
    + right; left. destruct (exec_real s i S Hi) as (r & _ & H2 & H3 & _ & H4 & _). exists r. split; [exact H2|]. right. exists i.
      split; [exact Hi|]. split; [reflexivity|]. split; [|right; exact H4]. rewrite H3. intros x I. exact I.
    + left. rewrite nfun_vs in Hi. destruct s as [m vs]. cbn [exec fst snd] in *. rewrite (proj2 (nth_error_None vs i) Hi). reflexivity.
  - destruct (Nat.lt_ge_cases i (nfun s)) as [Hi|Hi].
    + assert (D : operand_ok s g \/ ~ operand_ok s g) by (destruct g; cbn; lia). destruct D as [D|D]; [right; right; eauto 10|].
      left. destruct g as [j|]; [|contradiction D; exact I]. unfold operand_ok in D. rewrite nfun_vs in D. destruct s as [m vs]. cbn [exec fst snd] in *.
      destruct (Nat.ltb_spec j (length vs)); [lia|]. rewrite andb_false_r. reflexivity.
    + left. rewrite nfun_vs in Hi. destruct s as [m vs]. cbn [exec fst snd] in *. destruct (Nat.ltb_spec i (length vs)); [lia|]. reflexivity.
Qed.

Lemma exec_sok s c : sok s -> honest c -> sok (fst (exec s c)).
Proof.
  intros S H. destruct (exec_cases s c S H) as [->|[(r & (E1 & E2 & E3 & E4 & _) & _)|(op & i & g & -> & Hi & Hg)]]; [exact S| |].
  - split; [exact E3|]. rewrite E1. apply Forall_app. split; [|constructor; [exact E4|constructor]].
    destruct S as [_ F]. eapply List.Forall_impl; [|exact F]. intros r0 [A B]. split; [lia|exact B].
  - rewrite (exec_do s op i g Hi Hg). cbn [fst snd]. destruct (in_place_effect s op i g S Hi Hg) as (A1 & A2 & _). split; [exact A1|]. cbn [fst snd].
    destruct S as [_ F]. eapply List.Forall_impl; [|exact F]. intros r0 [A B]. split; [lia|exact B].
Qed.
Lemma start_sok : sok start.
Proof. split; [|constructor]. intros p Hp. cbn in Hp. lia. Qed.
Lemma run_sok cs : List.Forall honest cs -> sok (run start cs).
Proof.
  intros H. unfold run. assert (S := start_sok). revert S. generalize start. induction H as [|c cs Hc _ IH]; intros s S; [exact S|].
  cbn [fold_left]. apply IH. apply exec_sok; assumption.
Qed.

Lemma disjoint_sym l k : disjoint l k -> disjoint k l.
Proof. intros H c A B. exact (H c B A). Qed.

Lemma new_apart s c r org l : sok s -> oapart s org -> (l < length org)%nat -> extends s (fst (exec s c)) r ->
  ((exists e, c = Expr e) /\ rfun r = nobjs (fst s) /\ (forall x, In x (oc (fst (exec s c)) r) -> (ncells (fst s) <= x)%nat)
   \/ exists i, (i < nfun s)%nat /\ parent c = (fun org => nth i org 0%nat) /\ incl (oc (fst (exec s c)) r) (oc s (nth i (snd s) dref)) /\
      (r = nth i (snd s) dref \/ rfun r = nobjs (fst s))) ->
  parent c org <> nth l org 0%nat ->
  rfun r <> rfun (nth l (snd s) dref) /\ disjoint (oc (fst (exec s c)) r) (oc s (nth l (snd s) dref)).
Proof.
  intros S (A1 & A2 & A3) Hl E D HP. assert (Hl' : (l < nfun s)%nat) by (rewrite nfun_vs; lia).
  destruct (sok_nth s l S Hl') as [Pl _]. destruct (proj1 S _ Pl) as (B & _ & _). rewrite List.Forall_forall in B.
  destruct D as [(_ & R1 & R2)|(i & Hi & EP & IN & RR)].
  - split; [lia|]. intros x X1 X2. specialize (R2 x X1). specialize (B x X2). lia.
  - rewrite EP in HP. rewrite nfun_vs in Hi. destruct (A3 i l ltac:(lia) Hl HP) as [Q1 Q2]. split.
    + destruct RR as [->| ->]; [exact Q1|lia].
    + intros x X1 X2. exact (Q2 x (IN x X1) X2).
Qed.

Lemma step_apart s c org : sok s -> honest c -> oapart s org -> oapart (fst (exec s c)) (snd (org_step (s, org) c)).
Proof.
  intros S H A. unfold org_step. cbn [fst snd]. rewrite !nfun_vs.
  destruct (exec_cases s c S H) as [E|[(r & E & D)|(op & i & g & -> & Hi & Hg)]].
  - rewrite E. destruct (Nat.ltb_spec (length (snd s)) (length (snd s))); [lia|]. exact A.
  - assert (EV : snd (fst (exec s c)) = snd s ++ [r]) by apply E. rewrite EV, app_length. cbn [length].
    destruct (Nat.ltb_spec (length (snd s)) (length (snd s) + 1)); [|lia].
    assert (NA := fun l Hl => new_apart s c r org l S A Hl E D). destruct A as (A1 & A2 & A3).
    assert (PL : (parent c org <= length org)%nat).
    { destruct D as [((e & ->) & _)|(i & Hi & EP & _)]; [reflexivity|]. rewrite EP. rewrite nfun_vs in Hi.
      rewrite List.Forall_forall in A2. apply Nat.lt_le_incl. apply A2. apply nth_In. lia. }
    destruct E as (_ & _ & _ & _ & EQ).
    assert (OLD : forall l, (l < length org)%nat -> nth l (snd s ++ [r]) dref = nth l (snd s) dref /\
        oc (fst (exec s c)) (nth l (snd s) dref) = oc s (nth l (snd s) dref)).
    { intros l Hl. rewrite app_nth1 by lia. split; [reflexivity|]. unfold oc. destruct (sok_nth s l S ltac:(rewrite nfun_vs; lia)) as [Pl _].
      rewrite (proj1 (EQ _ Pl)). reflexivity. }
    assert (NEW : nth (length org) (snd s ++ [r]) dref = r) by (rewrite A1, app_nth2, Nat.sub_diag by lia; reflexivity).
    assert (NEWO : nth (length org) (org ++ [parent c org]) 0%nat = parent c org) by (rewrite app_nth2, Nat.sub_diag by lia; reflexivity).
    split; [rewrite EV, !app_length, A1; reflexivity|]. split.
    { rewrite app_length. cbn [length]. apply Forall_app. split; [|constructor; [lia|constructor]].
      eapply List.Forall_impl; [|exact A2]. cbn. intros. lia. }
    intros k l. rewrite app_length. cbn [length]. intros Hk Hl HD. rewrite EV. fold (oc (fst (exec s c)) (nth k (snd s ++ [r]) dref)).
    fold (oc (fst (exec s c)) (nth l (snd s ++ [r]) dref)).
    destruct (Nat.eq_dec k (length org)) as [K|K]; destruct (Nat.eq_dec l (length org)) as [L|L]; try congruence.
    + assert (Hl' : (l < length org)%nat) by lia. destruct (OLD l Hl') as [O1 O2].
      rewrite K, NEWO, (app_nth1 org _ _ Hl') in HD.
      destruct (NA l Hl' HD) as [N1 N2]. rewrite K, NEW, O1, O2. split; assumption.
    + assert (Hk' : (k < length org)%nat) by lia. destruct (OLD k Hk') as [O1 O2].
      rewrite L, NEWO, (app_nth1 org _ _ Hk') in HD.
      destruct (NA k Hk' (not_eq_sym HD)) as [N1 N2]. rewrite L, NEW, O1, O2. split; [apply not_eq_sym; exact N1|apply disjoint_sym; exact N2].
    + assert (Hk' : (k < length org)%nat) by lia. assert (Hl' : (l < length org)%nat) by lia. destruct (OLD k Hk') as [O1 O2]. destruct (OLD l Hl') as [O3 O4].
      rewrite !app_nth1 in HD by assumption. destruct (A3 k l Hk' Hl' HD) as [Q1 Q2]. rewrite O1, O2, O3, O4. split; assumption.
  - rewrite (exec_do s op i g Hi Hg). cbn [fst snd]. destruct (Nat.ltb_spec (length (snd s)) (length (snd s))); [lia|].
    destruct A as (A1 & A2 & A3). split; [exact A1|]. split; [exact A2|]. intros k l Hk Hl HD. cbn [fst snd]. destruct (A3 k l Hk Hl HD) as [Q1 Q2].
    split; [exact Q1|]. destruct (in_place_effect s op i g S Hi Hg) as (_ & _ & PS & _).
    apply PS; [apply (sok_nth s k S); rewrite nfun_vs; lia|apply (sok_nth s l S); rewrite nfun_vs; lia|exact Q1|exact Q2].
Qed.

Lemma run_org cs so : List.Forall honest cs -> sok (fst so) -> oapart (fst so) (snd so) ->
  fst (fold_left org_step cs so) = run (fst so) cs /\ oapart (run (fst so) cs) (snd (fold_left org_step cs so)).
Proof.
  intros H. revert so. induction H as [|c cs Hc _ IH]; intros [s org] S A; [split; [reflexivity|exact A]|].
  cbn [fold_left run fst snd]. destruct (IH (org_step (s, org) c)) as [I1 I2].
  - apply (exec_sok s c S Hc).
  - apply (step_apart s c org S Hc A).
  - split; [exact I1|exact I2].
Qed.
Lemma origins_apart cs : List.Forall honest cs -> oapart (run start cs) (origins cs).
Proof.
  intros H. apply (run_org cs (start, []) H start_sok). split; [reflexivity|]. split; [constructor|]. cbn. intros. lia.
Qed.

(** ** C195 *)
(** f op= g changes no function that does not stem from the same expression as f *)
Theorem C195_others_partial : forall cs op i g k, List.Forall honest cs ->
  let s := run start cs in
  (i < nfun s)%nat -> (k < nfun s)%nat -> origin cs k <> origin cs i ->
  alike (fn (run s [Do op i g]) k) (fn s k).
Proof.
  intros cs op i g k H s Hi Hk HO. assert (S := run_sok cs H). fold s in S. assert (A := origins_apart cs H). fold s in A.
  cbn [run fold_left].
  destruct (operand_dec s g) as [Hg|Hg]; [|rewrite (exec_do_bad s op i g Hg); apply alike_refl].
  rewrite (exec_do s op i g Hi Hg). cbn [fst]. rewrite !fn_read by (rewrite nfun_vs in *; assumption). cbn [fst snd].
  apply read_alike. destruct A as (A1 & A2 & A3). rewrite nfun_vs in Hi, Hk. destruct (A3 k i ltac:(lia) ltac:(lia) HO) as [Q1 Q2].
  destruct (in_place_effect s op i g S ltac:(rewrite nfun_vs; exact Hi) Hg) as (_ & _ & _ & FR & _). apply FR; [|exact Q1|exact Q2].
  apply (sok_nth s k S). rewrite nfun_vs. exact Hk.
Qed.
Print Assumptions C195_others_partial.

(** a statement that raises changes nothing *)
Theorem C195_raises : forall cs op i g k, List.Forall honest cs ->
  let s := run start cs in
  (i < nfun s)%nat -> (k < nfun s)%nat -> snd (exec s (Do op i g)) = true -> alike (fn (run s [Do op i g]) k) (fn s k).
Proof.
  intros cs op i g k H s Hi Hk HR. assert (S := run_sok cs H). fold s in S. cbn [run fold_left].
  destruct (operand_dec s g) as [Hg|Hg]; [|rewrite (exec_do_bad s op i g Hg); apply alike_refl].
  rewrite (exec_do s op i g Hi Hg) in *. cbn [fst snd] in *. rewrite !fn_read by (rewrite nfun_vs in *; assumption). cbn [fst snd].
  apply read_alike. destruct (in_place_effect s op i g S Hi Hg) as (_ & _ & _ & _ & FR). apply (FR HR). apply (sok_nth s k S Hk).
Qed.
Print Assumptions C195_raises.

(** making a function changes none of those that exist *)
Theorem C195_making : forall cs c k, List.Forall honest cs -> honest c -> (forall op i g, c <> Do op i g) ->
  let s := run start cs in (k < nfun s)%nat -> fn (run s [c]) k = fn s k.
Proof.
  intros cs c k H Hc ND s Hk. assert (S := run_sok cs H). fold s in S. cbn [run fold_left].
  destruct (exec_cases s c S Hc) as [->|[(r & (E1 & E2 & E3 & E4 & E5) & _)|(op & i & g & -> & _)]]; [reflexivity| |contradiction (ND op i g); reflexivity].
  rewrite nfun_vs in Hk. rewrite !fn_read by (rewrite nfun_vs, ?E1, ?app_length; cbn [length]; lia). rewrite E1, app_nth1 by exact Hk.
  unfold read. destruct (sok_nth s k S ltac:(rewrite nfun_vs; exact Hk)) as [P _]. f_equal. apply (E5 _ P).
Qed.
Print Assumptions C195_making.

Lemma alike_fev m m' r (v : nat -> R -> R) : ncols (obj_at m' (rfun r)) = ncols (obj_at m (rfun r)) ->
  (forall j y, (j < ncols (obj_at m (rfun r)))%nat -> ev (obj_at m' (rfun r)) j y = v j y) ->
  dom0 (read m' r) = dom0 (read m r) /\ dom1 (read m' r) = dom1 (read m r) /\ fcols (read m' r) = fcols (read m r) /\
  forall j x, (j < fcols (read m r))%nat -> fev (read m' r) j x = v j (map_bwd (ra r) (rb r) x).
Proof.
  intros H1 H2. split; [reflexivity|]. split; [reflexivity|]. split; [exact H1|]. intros j x Hj. exact (H2 j _ Hj).
Qed.
Lemma dom_ok F G : same_dom F G -> dom_check F G = true.
Proof.
  intros [E1 E2]. unfold dom_check, SMALL_EPS. rewrite E1, E2, !Rminus_diag_eq by reflexivity.
  assert (0 < / 10 ^ 8) by (apply Rinv_0_lt_compat; apply pow_lt; lra). destruct (Rltb 0 (/ 10 ^ 8)) eqn:E; [reflexivity|].
  unfold Rltb in E. destruct (Rlt_dec 0 (/ 10 ^ 8)); [discriminate|contradiction].
Qed.

(** what f op= g leaves in f: g any function of the program, f itself included *)
Definition in_place_value (s s' : state) (i : nat) (v : nat -> R -> R) : Prop :=
  dom0 (fn s' i) = dom0 (fn s i) /\ dom1 (fn s' i) = dom1 (fn s i) /\ fcols (fn s' i) = fcols (fn s i) /\
  forall c x, (c < fcols (fn s i))%nat -> fev (fn s' i) c x = v c x.
(** the column of G that meets column c: functions with one column are repeated *)
Definition meets (G : Fun) (c : nat) : nat := if Nat.eqb (fcols G) 1 then 0%nat else c.

Theorem C195_add : forall cs i j, List.Forall honest cs ->
  let s := run start cs in
  (i < nfun s)%nat -> (j < nfun s)%nat -> same_dom (fn s i) (fn s j) -> (fcols (fn s j) = fcols (fn s i) \/ fcols (fn s j) = 1%nat) ->
  snd (exec s (Do IAdd i (OFun j))) = false /\
  in_place_value s (run s [Do IAdd i (OFun j)]) i (fun c x => fev (fn s i) c x + fev (fn s j) (meets (fn s j) c) x) /\
  snd (exec s (Do ISub i (OFun j))) = false /\
  in_place_value s (run s [Do ISub i (OFun j)]) i (fun c x => fev (fn s i) c x - fev (fn s j) (meets (fn s j) c) x).
Proof.
  intros cs i j H s Hi Hj HD HC. assert (S := run_sok cs H). fold s in S. cbn [run fold_left].
  rewrite !(exec_do s _ i (OFun j) Hi Hj). unfold in_place_value. cbn [fst snd].
  assert (HD' := HD). rewrite !fn_read in * by (rewrite ?nfun_vs in *; assumption). cbn [fst snd].
  set (f := nth i (snd s) dref) in *. set (g := nth j (snd s) dref) in *.
  destruct (sok_nth s i S Hi) as [Pi _]. fold f in Pi. destruct (sok_nth s j S Hj) as [Pj _]. fold g in Pj.
  unfold in_place. fold dref f g. rewrite (dom_ok _ _ HD). destruct HD' as [D1 D2]. cbn [read dom0 dom1] in D1, D2.
  destruct (add_fun_effect (fst s) (rfun f) (rfun g) (proj1 S) Pi Pj) as (_ & A2 & A3).
  destruct (sub_fun_effect (fst s) (rfun f) (rfun g) (proj1 S) Pi Pj) as (_ & B2 & B3). cbv zeta in A2, A3, B2, B3.
  assert (EA : snd (h_add_fun (fst s) (rfun f) (rfun g)) = false) by (apply A2; exact HC).
  assert (EB : snd (h_sub_fun (fst s) (rfun f) (rfun g)) = false) by (apply B2; exact HC).
  destruct (A3 EA) as (A4 & _ & A5). destruct (B3 EB) as (B4 & _ & B5).
  split; [exact EA|]. split.
  - destruct (alike_fev (fst s) _ f _ A4 A5) as (Q1 & Q2 & Q3 & Q4). repeat (split; [assumption|]). intros c x Hc. rewrite (Q4 c x Hc).
    unfold fev. cbn [read onefun dom0 dom1]. rewrite D1, D2. reflexivity.
  - split; [exact EB|]. destruct (alike_fev (fst s) _ f _ B4 B5) as (Q1 & Q2 & Q3 & Q4). repeat (split; [assumption|]). intros c x Hc. rewrite (Q4 c x Hc).
    unfold fev. cbn [read onefun dom0 dom1]. rewrite D1, D2. reflexivity.
Qed.
Print Assumptions C195_add.

Lemma Forall_nz (row : list R) j m : fits row m -> (j < m)%nat -> List.Forall (fun a => a <> 0) row -> rnth row j <> 0.
Proof.
  intros F Hj H. unfold rnth. destruct row as [|a [|b row]].
  - destruct F as [F|F]; cbn in F; lia.
  - inversion H; assumption.
  - destruct F as [F|F]; [discriminate|]. rewrite List.Forall_forall in H. apply H. apply nth_In. lia.
Qed.

(** f += row, f -= row, f /= row with one number, or one number for each column *)
Theorem C195_row : forall cs i row, List.Forall honest cs ->
  let s := run start cs in
  (i < nfun s)%nat -> (length row = 1%nat \/ length row = fcols (fn s i)) -> List.Forall (fun a => a <> 0) row ->
  let a := fun c => if Nat.eqb (length row) 1 then nth 0 row 0 else nth c row 0 in
  snd (exec s (Do IAdd i (ORow row))) = false /\
  in_place_value s (run s [Do IAdd i (ORow row)]) i (fun c x => fev (fn s i) c x + a c) /\
  snd (exec s (Do ISub i (ORow row))) = false /\
  in_place_value s (run s [Do ISub i (ORow row)]) i (fun c x => fev (fn s i) c x - a c) /\
  snd (exec s (Do IDiv i (ORow row))) = false /\
  in_place_value s (run s [Do IDiv i (ORow row)]) i (fun c x => fev (fn s i) c x / a c).
Proof.
  intros cs i row H s Hi HC HZ a. assert (S := run_sok cs H). fold s in S. cbn [run fold_left].
  rewrite !(exec_do s _ i (ORow row) Hi I). unfold in_place_value. cbn [fst snd].
  rewrite !fn_read in * by (rewrite ?nfun_vs in *; assumption). cbn [fst snd].
  set (f := nth i (snd s) dref) in *. destruct (sok_nth s i S Hi) as [Pi _]. fold f in Pi.
  unfold in_place. fold dref f.
  destruct (add_row_effect (fst s) (rfun f) row (proj1 S) Pi) as (_ & A2 & A3).
  destruct (add_row_effect (fst s) (rfun f) (map Ropp row) (proj1 S) Pi) as (_ & B2 & B3).
  destruct (div_row_effect (fst s) (rfun f) row (proj1 S) Pi) as (_ & C2 & C3). cbv zeta in A2, A3, B2, B3, C2, C3.
  assert (FT : fits row (ncols (obj_at (fst s) (rfun f)))) by exact HC.
  assert (EA : snd (h_add_row (fst s) (rfun f) row) = false) by (apply A2; exact FT).
  assert (EB : snd (h_add_row (fst s) (rfun f) (map Ropp row)) = false) by (apply B2; unfold fits; rewrite map_length; exact FT).
  assert (EC : snd (h_div_row (fst s) (rfun f) row) = false) by (apply C2; exact FT).
  assert (RA : forall c, rnth row c = a c). { intros c. unfold rnth, a. destruct row as [|u [|v row']]; [destruct c; reflexivity|reflexivity|reflexivity]. }
  assert (RB : forall c, rnth (map Ropp row) c = - a c).
  { intros c. rewrite <- RA. unfold rnth. destruct row as [|u [|v row']]; [destruct c; cbn; ring|reflexivity|]. cbn [map].
    rewrite <- Ropp_0 at 1. exact (map_nth Ropp (u :: v :: row') 0 c). }
  destruct (A3 EA) as (A4 & A5). destruct (B3 EB) as (B4 & B5). destruct (C3 EC) as (C4 & C5).
  split; [exact EA|]. split.
  { destruct (alike_fev (fst s) _ f _ A4 A5) as (Q1 & Q2 & Q3 & Q4). repeat (split; [assumption|]). intros c x Hc. rewrite (Q4 c x Hc). rewrite RA. reflexivity. }
  split; [exact EB|]. split.
  { destruct (alike_fev (fst s) _ f _ B4 B5) as (Q1 & Q2 & Q3 & Q4). repeat (split; [assumption|]). intros c x Hc. rewrite (Q4 c x Hc). rewrite RB. reflexivity. }
  split; [exact EC|].
  destruct (alike_fev (fst s) _ f _ C4 C5) as (Q1 & Q2 & Q3 & Q4). repeat (split; [assumption|]). intros c x Hc. rewrite (Q4 c x Hc). rewrite RA. reflexivity.
Qed.
Print Assumptions C195_row.

(** f *= a *)
Theorem C195_scale : forall cs i a, List.Forall honest cs ->
  let s := run start cs in
  (i < nfun s)%nat -> snd (exec s (Do IMul i (ORow [a]))) = false /\
  in_place_value s (run s [Do IMul i (ORow [a])]) i (fun c x => a * fev (fn s i) c x).
Proof.
  intros cs i a H s Hi. assert (S := run_sok cs H). fold s in S. cbn [run fold_left].
  rewrite !(exec_do s _ i (ORow [a]) Hi I). unfold in_place_value. cbn [fst snd].
  rewrite !fn_read in * by (rewrite ?nfun_vs in *; assumption). cbn [fst snd].
  set (f := nth i (snd s) dref) in *. destruct (sok_nth s i S Hi) as [Pi _]. fold f in Pi. unfold in_place. fold dref f.
  destruct (mul_row_effect (fst s) (rfun f) [a] (proj1 S) Pi) as (_ & A2 & A3). cbv zeta in A2, A3.
  assert (W : wf (obj_at (fst s) (rfun f))) by (destruct (proj1 S _ Pi) as (_ & _ & W); exact W).
  destruct (multiply_number_correct (obj_at (fst s) (rfun f)) a W) as (h & EH & Wh & NH & _ & _ & VH).
  assert (EM : multiply_array (obj_at (fst s) (rfun f)) [[a]] = Some h) by exact EH. rewrite EM in A2, A3.
  assert (EA : snd (h_mul_row (fst s) (rfun f) [a]) = false).
  { destruct (snd (h_mul_row (fst s) (rfun f) [a])); [|reflexivity]. destruct A2 as [A2 _]. discriminate (A2 eq_refl). }
  destruct (A3 EA) as (h' & E' & _ & (N & V) & _). assert (h' = h) by congruence. subst h'.
  split; [exact EA|].
  assert (V' : forall j y, (j < ncols (obj_at (fst s) (rfun f)))%nat -> ev (obj_at (fst (h_mul_row (fst s) (rfun f) [a])) (rfun f)) j y = a * ev (obj_at (fst s) (rfun f)) j y).
  { intros j y Hj. rewrite V. apply VH. exact Hj. }
  destruct (alike_fev (fst s) _ f _ (eq_trans N NH) V') as (Q1 & Q2 & Q3 & Q4). repeat (split; [assumption|]). exact Q4.
Qed.
Print Assumptions C195_scale.

(** f *= g and f /= g leave in f what f * g and f / g return, and raise when these raise *)
Theorem C195_product : forall cs i j, List.Forall honest cs ->
  let s := run start cs in
  (i < nfun s)%nat -> (j < nfun s)%nat ->
  (forall H, fun_multiply (fn s i) (fn s j) = Some H -> snd (exec s (Do IMul i (OFun j))) = false /\ alike (fn (run s [Do IMul i (OFun j)]) i) H) /\
  (fun_multiply (fn s i) (fn s j) = None -> snd (exec s (Do IMul i (OFun j))) = true) /\
  (forall H, fun_divide (fn s i) (fn s j) = Some H -> snd (exec s (Do IDiv i (OFun j))) = false /\ alike (fn (run s [Do IDiv i (OFun j)]) i) H) /\
  (fun_divide (fn s i) (fn s j) = None -> snd (exec s (Do IDiv i (OFun j))) = true).
Proof.
  intros cs i j H s Hi Hj. assert (S := run_sok cs H). fold s in S. cbn [run fold_left].
  rewrite !(exec_do s _ i (OFun j) Hi Hj). cbn [fst snd].
  rewrite !fn_read by (rewrite ?nfun_vs in *; assumption). cbn [fst snd].
  set (f := nth i (snd s) dref) in *. set (g := nth j (snd s) dref) in *.
  destruct (sok_nth s i S Hi) as [Pi _]. fold f in Pi. destruct (sok_nth s j S Hj) as [Pj _]. fold g in Pj.
  unfold in_place, fun_multiply, fun_divide, fun_binary. fold dref f g. rewrite (dom_ok (read (fst s) f) (read (fst s) f)) by (split; reflexivity). cbn [andb].
  destruct (dom_check (read (fst s) f) (read (fst s) g)); [|repeat split; discriminate].
  destruct (mul_fun_effect (fst s) (rfun f) (rfun g) (proj1 S) Pi Pj) as (_ & A2 & A3).
  destruct (div_fun_effect (fst s) (rfun f) (rfun g) (proj1 S) Pi Pj) as (_ & B2 & B3). cbv zeta in A2, A3, B2, B3.
  change (onefun (read (fst s) f)) with (obj_at (fst s) (rfun f)). change (onefun (read (fst s) g)) with (obj_at (fst s) (rfun g)).
  assert (AL : forall m' h, same_fun (obj_at m' (rfun f)) h -> alike (read m' f) (mkFun h (ra f) (rb f))).
  { intros m' h [N V]. split; [reflexivity|]. split; [reflexivity|]. split; [exact N|]. intros c x. unfold fev. cbn [read onefun dom0 dom1]. apply V. }
  split; [|split; [|split]].
  - intros K E. destruct (snd (h_mul_fun (fst s) (rfun f) (rfun g))) eqn:ES.
    + rewrite (proj1 A2 eq_refl) in E. discriminate.
    + split; [reflexivity|]. destruct (A3 eq_refl) as (h & E' & _ & SF & _). rewrite E' in E. injection E as <-. apply AL. exact SF.
  - intros E. apply A2. destruct (multiply _ _); [discriminate|reflexivity].
  - intros K E. destruct (snd (h_div_fun (fst s) (rfun f) (rfun g))) eqn:ES.
    + rewrite (proj1 B2 eq_refl) in E. discriminate.
    + split; [reflexivity|]. destruct (B3 eq_refl) as (h & E' & _ & SF & _). rewrite E' in E. injection E as <-. apply AL. exact SF.
  - intros E. apply B2. destruct (cheb_divide _ _); [discriminate|reflexivity].
Qed.
Print Assumptions C195_product.

(** ** what is shared *)
Lemma add_row_mem m p row : let m' := fst (h_add_row m p row) in objs m' = objs m /\ forall c, ~ In c (ocols (objs m p)) -> cells m' c = cells m c.
Proof.
  cbv zeta. unfold h_add_row. destruct (Nat.eqb _ _); cbn [fine raised fst]; [|split; reflexivity].
  split; [apply write_rest|]. intros c Hc. apply write_other. exact Hc.
Qed.
Lemma col_cell m q j : (j < length (ocols (objs m q)))%nat -> nth j (coeffs (obj_at m q)) [] = cells m (nth j (ocols (objs m q)) 0%nat).
Proof.
  intros H. unfold obj_at. cbn [read_obj coeffs]. rewrite (nth_indep _ [] (cells m 0%nat)) by (rewrite map_length; exact H). apply map_nth.
Qed.
Lemma fcols_cells s i : (i < nfun s)%nat -> fcols (fn s i) = length (oc s (nth i (snd s) dref)).
Proof. intros Hi. rewrite (fn_read s i Hi). unfold fcols, ncols, read. cbn [onefun read_obj coeffs]. apply map_length. Qed.

(** an alias of some columns of f and one in-place addition to it *)
Lemma shared_add s s1 r i a : sok s -> (i < nfun s)%nat -> extends s s1 r -> ra r = ra (nth i (snd s) dref) -> rb r = rb (nth i (snd s) dref) ->
  (forall x, In x (oc s1 r) -> cells (fst s1) x = cells (fst s) x) ->
  incl (oc s1 r) (oc s (nth i (snd s) dref)) ->
  let s2 := run s1 [Do IAdd (nfun s) (ONum a)] in
  forall c x, (c < fcols (fn s i))%nat ->
    fev (fn s2 i) c x = fev (fn s i) c x + if in_dec Nat.eq_dec (nth c (oc s (nth i (snd s) dref)) 0%nat) (oc s1 r) then a else 0.
Proof.
  intros S Hi (E1 & E2 & E3 & E4 & E5) Ra Rb EC IN s2 c x Hc.
  set (f := nth i (snd s) dref) in *. destruct (sok_nth s i S Hi) as [Pi _]. fold f in Pi.
  assert (S1 : sok s1).
  { split; [exact E3|]. rewrite E1. apply Forall_app. split; [|constructor; [exact E4|constructor]]. destruct S as [_ F].
    eapply List.Forall_impl; [|exact F]. intros r0 [A B]. split; [lia|exact B]. }
  assert (N1 : nfun s1 = (nfun s + 1)%nat) by (rewrite !nfun_vs, E1, app_length; cbn [length]; lia).
  assert (R1 : nth (nfun s) (snd s1) dref = r) by (rewrite E1, nfun_vs, app_nth2, Nat.sub_diag by lia; reflexivity).
  assert (R2 : nth i (snd s1) dref = f) by (rewrite E1, app_nth1; [reflexivity|rewrite <- nfun_vs; exact Hi]).
  unfold s2. cbn [run fold_left]. rewrite (exec_do s1 IAdd (nfun s) (ONum a) ltac:(lia) I). cbn [fst].
  rewrite !fn_read by (rewrite ?nfun_vs in *; cbn [snd]; lia). cbn [fst snd]. rewrite R2. fold f. unfold in_place, ONum. fold dref. rewrite R1.
  destruct (sok_nth s1 (nfun s) S1 ltac:(lia)) as [Pr _]. rewrite R1 in Pr.
  destruct (add_row_effect (fst s1) (rfun r) [a] E3 Pr) as (_ & A2 & A3). cbv zeta in A2, A3.
  destruct (A3 (proj2 A2 (or_introl eq_refl))) as [A4 A5].
  destruct (add_row_mem (fst s1) (rfun r) [a]) as [M1 M2]. set (m2 := fst (h_add_row (fst s1) (rfun r) [a])) in *. cbv zeta in M1, M2.
  rewrite (fcols_cells s i Hi) in Hc. fold f in Hc.
  assert (OF : ocols (objs m2 (rfun f)) = oc s f) by (rewrite M1; destruct (E5 _ Pi) as [-> _]; reflexivity).
  unfold fev. cbn [read onefun dom0 dom1]. set (y := (2 * x - ra f - rb f) / (rb f - ra f)).
  change (ev (obj_at m2 (rfun f)) c y = ev (obj_at (fst s) (rfun f)) c y + (if in_dec Nat.eq_dec (nth c (oc s f) 0%nat) (oc s1 r) then a else 0)).
  unfold ev at 1 2. rewrite (col_cell m2) by (rewrite OF; exact Hc). rewrite (col_cell (fst s)) by exact Hc. rewrite OF.
  fold (oc s f). set (z := nth c (oc s f) 0%nat). destruct (in_dec Nat.eq_dec z (oc s1 r)) as [Z|Z].
  - destruct (In_nth _ _ 0%nat Z) as (k & Hk & EZ).
    assert (Hk' : (k < ncols (obj_at (fst s1) (rfun r)))%nat) by (unfold ncols, obj_at; cbn [read_obj coeffs]; rewrite map_length; exact Hk).
    specialize (A5 k y Hk'). unfold ev in A5. rewrite (col_cell m2) in A5 by (rewrite M1; exact Hk). rewrite (col_cell (fst s1)) in A5 by exact Hk.
    rewrite M1 in A5. fold (oc s1 r) in A5. rewrite EZ in A5. rewrite A5, (EC z Z). reflexivity.
  - rewrite M2 by exact Z. assert (B := proj1 (proj1 S _ Pi)). rewrite List.Forall_forall in B.
    assert (Q := proj2 (E5 _ Pi)). assert (Q' := f_equal (fun h => nth c (coeffs h) []) Q). cbv beta in Q'.
    rewrite (col_cell (fst s1)) in Q' by (rewrite (proj1 (E5 _ Pi)); exact Hc). rewrite (col_cell (fst s)) in Q' by exact Hc.
    rewrite (proj1 (E5 _ Pi)) in Q'. fold (oc s f) z in Q'. rewrite Q'. ring.
Qed.

(** after g = +f (or f**1, or copy.copy(f)) and g += a, f has changed everywhere *)
Theorem C195_unary_plus_refuted : forall cs i a, List.Forall honest cs ->
  let s := run start cs in
  (i < nfun s)%nat -> a <> 0 ->
  let s2 := run s [Same i; Do IAdd (nfun s) (ONum a)] in
  forall c x, (c < fcols (fn s i))%nat -> fev (fn s2 i) c x = fev (fn s i) c x + a.
Proof.
  intros cs i a H s Hi Ha s2 c x Hc. assert (S := run_sok cs H). fold s in S. destruct (exec_same s i S Hi) as [_ E].
  set (r := nth i (snd s) dref) in *. destruct (sok_nth s i S Hi) as [Pi _]. fold r in Pi.
  assert (OE : oc (fst (exec s (Same i))) r = oc s r) by (unfold oc; destruct E as (_ & _ & _ & _ & E5); rewrite (proj1 (E5 _ Pi)); reflexivity).
  assert (Q := shared_add s (fst (exec s (Same i))) r i a S Hi E eq_refl eq_refl).
  change s2 with (run (fst (exec s (Same i))) [Do IAdd (nfun s) (ONum a)]). rewrite Q; [| | |exact Hc].
  - destruct (in_dec _ _ _) as [_|N]; [reflexivity|]. contradiction N. rewrite OE. apply nth_In. rewrite (fcols_cells s i Hi) in Hc. exact Hc.
  - intros y _. destruct s as [m vs]. unfold exec. cbn [fst snd] in *. destruct (nth_error vs i); reflexivity.
  - rewrite OE. intros y Hy. exact Hy.
Qed.
Print Assumptions C195_unary_plus_refuted.

(** after g = f[k] and g += a, column k of f has changed *)
Theorem C195_column_refuted : forall cs i k a, List.Forall honest cs ->
  let s := run start cs in
  (i < nfun s)%nat -> (k < fcols (fn s i))%nat -> a <> 0 ->
  let s2 := run s [Col i k; Do IAdd (nfun s) (ONum a)] in
  forall c x, (c < fcols (fn s i))%nat -> fev (fn s2 i) c x = fev (fn s i) c x + if Nat.eq_dec c k then a else 0.
Proof.
  intros cs i k a H s Hi Hk Ha s2 c x Hc. assert (S := run_sok cs H). fold s in S.
  destruct (exec_col s i k S Hi Hk) as (r & _ & E & OE & CE & _ & Ra & Rb).
  assert (Hk' := Hk). assert (Hc' := Hc). rewrite (fcols_cells s i Hi) in Hk', Hc'.
  assert (Q := shared_add s (fst (exec s (Col i k))) r i a S Hi E Ra Rb).
  change s2 with (run (fst (exec s (Col i k))) [Do IAdd (nfun s) (ONum a)]). rewrite Q; [| | |exact Hc].
  - rewrite OE. destruct (sok_nth s i S Hi) as [Pi _]. destruct (proj1 S _ Pi) as (_ & N & _).
    destruct (in_dec _ _ _) as [I0|I0]; destruct (Nat.eq_dec c k) as [D|D]; try reflexivity; exfalso.
    + destruct I0 as [I0|[]]. apply D. symmetry. apply (proj1 (NoDup_nth _ 0%nat) N); assumption.
    + apply I0. rewrite D. left. reflexivity.
  - rewrite CE. reflexivity.
  - rewrite OE. intros y [<-|[]]. apply nth_In. exact Hk'.
Qed.
Print Assumptions C195_column_refuted.

(** after g = np.real(f) and g += a, f has changed everywhere *)
Theorem C195_real_refuted : forall cs i a, List.Forall honest cs ->
  let s := run start cs in
  (i < nfun s)%nat -> a <> 0 ->
  let s2 := run s [RealPart i; Do IAdd (nfun s) (ONum a)] in
  forall c x, (c < fcols (fn s i))%nat -> fev (fn s2 i) c x = fev (fn s i) c x + a.
Proof.
  intros cs i a H s Hi Ha s2 c x Hc. assert (S := run_sok cs H). fold s in S.
  destruct (exec_real s i S Hi) as (r & _ & E & OE & CE & _ & Ra & Rb).
  assert (Hc' := Hc). rewrite (fcols_cells s i Hi) in Hc'.
  assert (Q := shared_add s (fst (exec s (RealPart i))) r i a S Hi E Ra Rb).
  change s2 with (run (fst (exec s (RealPart i))) [Do IAdd (nfun s) (ONum a)]). rewrite Q; [| | |exact Hc].
  - rewrite OE. destruct (in_dec _ _ _) as [_|N]; [reflexivity|]. contradiction N. apply nth_In. exact Hc'.
  - rewrite CE. reflexivity.
  - rewrite OE. intros y Hy. exact Hy.
Qed.
Print Assumptions C195_real_refuted.

(** a product with one number for each column raises *)
Theorem C195_times_row_refuted : forall cs i row, List.Forall honest cs ->
  let s := run start cs in
  (i < nfun s)%nat -> (2 <= fcols (fn s i))%nat -> length row = fcols (fn s i) -> snd (exec s (Do IMul i (ORow row))) = true.
Proof.
  intros cs i row H s Hi HC HL. assert (S := run_sok cs H). fold s in S. rewrite (exec_do s IMul i (ORow row) Hi I). cbn [snd].
  unfold in_place. fold dref. destruct (sok_nth s i S Hi) as [Pi _].
  destruct (mul_row_effect (fst s) _ row (proj1 S) Pi) as (_ & A & _). apply A. rewrite (fn_read s i Hi) in HC, HL.
  change (fcols (read (fst s) (nth i (snd s) dref))) with (length (coeffs (obj_at (fst s) (rfun (nth i (snd s) dref))))) in HC, HL.
  unfold multiply_array, same_shape. cbn [nrows length]. unfold nrows. cbn [hd]. rewrite Nat.mul_1_r.
  destruct (Nat.eqb_spec (length row) 1); [lia|]. destruct (Nat.eqb_spec (length (coeffs (obj_at (fst s) (rfun (nth i (snd s) dref))))) 1); [lia|]. reflexivity.
Qed.
Print Assumptions C195_times_row_refuted.

(** f *= g may change the number of columns of f *)
Theorem C195_widens_refuted : forall cs i j, List.Forall honest cs ->
  let s := run start cs in
  (i < nfun s)%nat -> (j < nfun s)%nat -> same_dom (fn s i) (fn s j) -> (2 <= flen (fn s i))%nat -> (2 <= flen (fn s j))%nat ->
  fcols (fn s i) = 1%nat -> (2 <= fcols (fn s j))%nat ->
  snd (exec s (Do IMul i (OFun j))) = false /\ fcols (fn (run s [Do IMul i (OFun j)]) i) = fcols (fn s j).
Proof.
  intros cs i j H s Hi Hj HD L1 L2 C1 C2. assert (S := run_sok cs H). fold s in S.
  destruct (C195_product cs i j H Hi Hj) as (P & _). fold s in P.
  destruct (multiply_correct (onefun (fn s i)) (onefun (fn s j))) as (h & q & E & _ & NC & _).
  - apply (sok_fwf s i S Hi).
  - apply (sok_fwf s j S Hj).
  - exact L1.
  - exact L2.
  - right; left. exact C1.
  - destruct (P (mkFun h (dom0 (fn s i)) (dom1 (fn s i)))) as [P1 P2].
    { unfold fun_multiply, fun_binary. rewrite (dom_ok _ _ HD), (dom_ok (fn s i) (fn s i)) by (split; reflexivity). cbn [andb]. rewrite E. reflexivity. }
    split; [exact P1|]. destruct P2 as (_ & _ & N & _). rewrite N. unfold fcols at 1. cbn [onefun]. rewrite NC.
    unfold fcols in *. lia.
Qed.
Print Assumptions C195_widens_refuted.

(** x^2 on [0,1], its alias, its column, its real part, and np.copy of it *)
Definition prog : list stmt := [Expr (fun _ => Some sq01); Same 0; Col 0 0; RealPart 0; Expr (fun l => Some (nth 0 l sq01))].
Theorem C195_case : List.Forall honest prog /\ origins prog = [0; 0; 0; 0; 4]%nat /\
  let s := run start prog in shown s = [sq01; sq01; sq01; sq01; sq01] /\
  (forall x, fev (fn (run s [Do IAdd 4 (OFun 2)]) 4) 0 x = 2 * x ^ 2) /\
  (forall x, fev (fn (run s [Do ISub 2 (ONum 3)]) 4) 0 x = x ^ 2) /\
  forall x, fev (fn (run (run start [Expr (fun _ => Some sq01)]) [Col 0 0; Do IAdd 1 (ONum 1)]) 0) 0 x = x ^ 2 + 1.
Proof.
  assert (H1 : List.Forall honest [Expr (fun _ => Some sq01)]).
  { constructor; [|constructor]. intros l0 F _ E. injection E as <-. exact fwf_sq01. }
  assert (HN : List.Forall honest prog).
  { repeat (constructor; [first [exact I|intros l0 F HF E]|]); [| |constructor].
    - injection E as <-. exact fwf_sq01.
    - injection E as <-. destruct l0 as [|G l0]; [exact fwf_sq01|]. inversion HF; assumption. }
  assert (V : forall x, fev sq01 0 x = x ^ 2).
  { intros x. unfold fev, ev, sq01. cbn [onefun coeffs nth dom0 dom1]. unfold evalT. cbn. field. }
  split; [exact HN|]. split; [reflexivity|]. split; [reflexivity|]. split; [|split].
  - intros x. destruct (C195_add prog 4 2 HN) as (_ & (_ & _ & _ & Q) & _); [cbn; lia|cbn; lia|split; reflexivity|left; reflexivity|].
    rewrite Q by (cbn; lia). change (fn (run start prog) 4) with sq01. change (fn (run start prog) 2) with sq01. change (meets sq01 0) with 0%nat. rewrite !V. ring.
  - intros x. destruct (C195_others_partial prog ISub 2 (ONum 3) 4 HN) as (_ & _ & _ & Q); [cbn; lia|cbn; lia|discriminate|].
    rewrite Q. apply V.
  - intros x. assert (Q := C195_column_refuted _ 0 0 1 H1). cbv zeta in Q.
    change (nfun (run start [Expr (fun _ : list Fun => Some sq01)])) with 1%nat in Q. rewrite Q; [|lia|cbn; lia|lra|cbn; lia].
    change (fn (run start [Expr (fun _ : list Fun => Some sq01)]) 0) with sq01. rewrite V. reflexivity.
Qed.
Print Assumptions C195_case.
