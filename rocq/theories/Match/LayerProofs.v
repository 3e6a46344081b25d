(** What the patterns of graph_patterns.py match. *)
From Coq Require Import String List Arith Bool Lia.
From Verif.Base Require Import Py.
From Verif.Graph Require Import Model.
From Verif.Match Require Import Model Spec MatchProofs SatProofs.
Import ListNotations.
Open Scope string_scope.
Open Scope list_scope.

(* ------------------------------------------------------------------------ *)
(** * The patterns in the grammar *)

Local Arguments String.eqb : simpl never.
Section Asts.
Variable g : tgraph.
Definition T (n : option string) : pattern := Elem n [is_tensor].
Definition V (n : option string) : pattern := Elem n [is_var g].
Definition O (n : option string) (ty : string) : pattern := Elem n [op_type_is g ty].
Definition Inn (P : pattern) (Ps : list pattern) : pattern := Internal P (Some Ps) None.

Definition linear_ast : pattern :=
  Inn (Choice (map (O (Some "linear_op")) ["Conv2D"; "MatMul"; "BatchMatMulV2"])) [T (Some "in"); V (Some "weights")].
Definition adds_ast (l : list string) : pattern := Choice (map (O None) l).
Definition affine_ast : pattern :=
  let adds := adds_ast ["Add"; "BiasAdd"; "AddV2"] in
  Inn (T (Some "pre_activations"))
    [Choice [Choice [Inn adds [Inn (T None) [linear_ast]; V (Some "biases")];
                     Inn adds [V (Some "biases"); Inn (T None) [linear_ast]]]; linear_ast]].
Definition scale_ast : pattern :=
  Choice [Inn (O None "Mul") [T (Some "in"); V (Some "scale")]; Inn (O None "Mul") [V (Some "scale"); T (Some "in")]].
Definition scale_shift_ast : pattern :=
  let adds := adds_ast ["Add"; "AddV2"] in
  Inn (T (Some "out"))
    [Choice [Inn adds [Inn (T None) [scale_ast]; V (Some "shift")];
             Inn adds [V (Some "shift"); Inn (T None) [scale_ast]]; scale_ast]].
Definition embed_ast : pattern :=
  Inn (T (Some "pre_activations"))
    [Choice [Inn (Choice (map (O (Some "linear_op")) ["Gather"; "ResourceGather"])) [V (Some "weights"); T (Some "in")];
             Inn (O (Some "linear_op") "GatherV2") [V (Some "weights"); T (Some "in"); T (Some "axis")]]].
Definition fused_ast : pattern :=
  Inn (T (Some "out"))
    [Inn (adds_ast ["FusedBatchNorm"; "FusedBatchNormV2"; "FusedBatchNormV3"])
       [T (Some "in"); T (Some "scale"); T (Some "offset"); T None; T None]].
Definition bn_ast : pattern :=
  let inv := Inn (T (Some "inv")) [Choice [O None "Rsqrt";
               Inn (O None "Mul") [Inn (T None) [O None "Rsqrt"]; T (Some "scale")]]] in
  let without := Inn (O None "Mul") [T None; T (Some "inv")] in
  let with_ := Inn (O None "Sub") [T (Some "offset"); Inn (T None) [without]] in
  Inn (T (Some "out")) [Inn (O None "AddV2")
    [Inn (T None) [Inn (O None "Mul") [T (Some "in"); inv]]; Inn (T None) [Choice [with_; without]]]].

Ltac den := repeat first [exact (dn_elem _ [_]) | apply dn_thunk | apply dn_choice | apply dn_in | constructor].
Lemma affine_denotes : denotes (gp_Affine g) affine_ast. Proof. den. Qed.
Lemma scale_shift_denotes : denotes (gp_ScaleAndShift g) scale_shift_ast. Proof. den. Qed.
Lemma embed_denotes : denotes (gp_Embed g) embed_ast. Proof. den. Qed.
Lemma fused_denotes : denotes (gp_FusedBatchNormOutput g) fused_ast. Proof. den. Qed.
Lemma bn_denotes : denotes (gp_BatchNorm g) bn_ast. Proof. den. Qed.

(* ------------------------------------------------------------------------ *)
(** * Elementary patterns *)

Definition nstep (n : option string) (b : bindings) (x : node) (b' : bindings) : Prop :=
  match naming n with
  | None => b' = b
  | Some n => (lookup b n = Some x /\ b' = b) \/ (lookup b n = None /\ b' = b ++ [(n, x)])
  end.

Lemma b_tensor n b b' d u : binds g (T n) b b' d u <->
  exists t, d = DNode (Tn t) /\ u = [Tn t] /\ nstep n b (Tn t) b'.
Proof.
  simpl. split.
  - intros (x & -> & -> & F & K). inversion F as [|? ? E _]; subst. destruct x as [t| |]; try discriminate E.
    exists t. auto.
  - intros (t & -> & -> & K). exists (Tn t). split; [reflexivity|]. split; [reflexivity|]. split; [|exact K].
    constructor; [reflexivity|constructor].
Qed.
Lemma b_var n b b' d u : binds g (V n) b b' d u <->
  exists t, d = DNode (Tn t) /\ tg_isvar g t = true /\ u = [Tn t] /\ nstep n b (Tn t) b'.
Proof.
  simpl. split.
  - intros (x & -> & -> & F & K). inversion F as [|? ? E _]; subst. destruct x as [t| |]; try discriminate E.
    exists t. auto.
  - intros (t & -> & E & -> & K). exists (Tn t). split; [reflexivity|]. split; [reflexivity|]. split; [|exact K].
    constructor; [exact E|constructor].
Qed.
Lemma b_op n ty b b' d u : binds g (O n ty) b b' d u <->
  exists o, d = DNode (Opn o) /\ has_type g o [ty] /\ u = [Opn o] /\ nstep n b (Opn o) b'.
Proof.
  unfold has_type. simpl. split.
  - intros (x & -> & -> & F & K). inversion F as [|? ? E _]; subst. destruct x as [|o|]; try discriminate E.
    apply String.eqb_eq in E. exists o. auto 6.
  - intros (o & -> & [E|[]] & -> & K). exists (Opn o). split; [reflexivity|]. split; [reflexivity|]. split; [|exact K].
    constructor; [simpl; apply String.eqb_eq; auto|constructor].
Qed.
Lemma b_ops n tys b b' d u : binds g (Choice (map (O n) tys)) b b' d u <->
  exists o, d = DNode (Opn o) /\ has_type g o tys /\ u = [Opn o] /\ nstep n b (Opn o) b'.
Proof.
  induction tys as [|ty tys IH].
  - simpl. split; [tauto|]. intros (o & _ & [] & _).
  - change (binds g (Choice (map (O n) (ty :: tys))) b b' d u)
      with (binds g (O n ty) b b' d u \/ binds g (Choice (map (O n) tys)) b b' d u).
    rewrite b_op, IH. unfold has_type. simpl. split.
    + intros [(o & K)|(o & K)]; exists o; tauto.
    + intros (o & -> & [K|K] & R); [left|right]; exists o; tauto.
Qed.

Lemma b_tin n Q b b' d u : binds g (Inn (T n) [Q]) b b' d u <->
  exists t o b1 v, d = DNode (Tn t) /\ computed_by g t o /\ nstep n b (Tn t) b1 /\
    binds g Q b1 b' (DNode (Opn o)) v /\ u = Tn t :: v.
Proof.
  unfold Inn. split.
  - intros (b1 & b2 & u1 & v & w & -> & K1 & K2 & K3).
    apply b_tensor in K1 as (t & -> & -> & S). simpl in K2, K3. destruct K3 as [-> ->].
    destruct K2 as (ds & N & K2). inversion N as [|? t' L S']; subst. simpl in K2.
    destruct K2 as (b3 & v1 & v2 & K & [-> ->] & ->).
    exists t, (producer g t'), b1, v1. split; [reflexivity|]. split; [split; eauto|]. split; [exact S|].
    split; [exact K|]. rewrite !app_nil_r. reflexivity.
  - intros (t & o & b1 & v & -> & (L & t' & S' & ->) & S & K & ->).
    exists b1, b', [Tn t], v, []. split; [rewrite app_nil_r; reflexivity|]. split; [apply b_tensor; eauto|]. split.
    + exists (ops [producer g t']). split; [constructor; assumption|]. simpl. exists b', v, [].
      split; [exact K|]. split; [auto|]. rewrite app_nil_r. reflexivity.
    + simpl. auto.
Qed.

Lemma b_oin P Qs b b' o u : binds g (Inn P Qs) b b' (DNode (Opn o)) u <->
  exists ts b1 u1 v, binds g P b b1 (DNode (Opn o)) u1 /\ reads g o ts /\
    choose (binds g) Qs b1 b' (tensors ts) v /\ u = u1 ++ v.
Proof.
  unfold Inn. split.
  - intros (b1 & b2 & u1 & v & w & -> & K1 & K2 & K3). simpl in K2, K3. destruct K3 as [-> ->].
    destruct K2 as (ds & N & K2). inversion N as [? ts F|]; subst.
    exists ts, b1, u1, v. rewrite app_nil_r. auto.
  - intros (ts & b1 & u1 & v & K1 & R & K2 & ->).
    exists b1, b', u1, v, []. rewrite app_nil_r. split; [reflexivity|]. split; [exact K1|]. split.
    + exists (tensors ts). split; [constructor; exact R|exact K2].
    + simpl. auto.
Qed.

Lemma choose_cons Q Qs b b' ds u : choose (binds g) (Q :: Qs) b b' ds u <->
  exists d ds' b1 v w, ds = d :: ds' /\ binds g Q b b1 d v /\ choose (binds g) Qs b1 b' ds' w /\ u = v ++ w.
Proof.
  destruct ds as [|d ds]; simpl.
  - split; [tauto|]. intros (? & ? & ? & ? & ? & E & _). discriminate.
  - split.
    + intros (b1 & v & w & K). exists d, ds, b1, v, w. tauto.
    + intros (d' & ds' & b1 & v & w & E & K). injection E as -> ->. exists b1, v, w. tauto.
Qed.
Lemma choose_nil b b' ds u : choose (binds g) [] b b' ds u <-> ds = [] /\ b' = b /\ u = [].
Proof. destruct ds; simpl; [tauto|]. split; [tauto|]. intros [E _]. discriminate. Qed.

(** A tensor element of the inputs. *)
Lemma tensors_cons ts d ds : tensors ts = d :: ds -> exists t ts', ts = t :: ts' /\ d = DNode (Tn t) /\ ds = tensors ts'.
Proof. destruct ts as [|t ts]; simpl; [discriminate|]. intros E. injection E as <- <-. eauto. Qed.
Lemma tensors_nil ts : tensors ts = [] -> ts = [].
Proof. destruct ts; [auto|discriminate]. Qed.

(* ------------------------------------------------------------------------ *)
(** * Linear layers *)

(** A name that is not bound yet. *)
Lemma nstep_new n b x b' : lookup b n = None -> nstep (Some n) b x b' <->
  b' = match n with EmptyString => b | _ => b ++ [(n, x)] end.
Proof.
  intros L. unfold nstep, naming. destruct n as [|a s]; [tauto|]. rewrite L. split; [|tauto].
  intros [[K _]|[_ K]]; [discriminate|exact K].
Qed.

Lemma b_linear b b' o u : lookup b "linear_op" = None -> lookup b "in" = None -> lookup b "weights" = None ->
  (binds g linear_ast b b' (DNode (Opn o)) u <->
   exists i w, linear g o i w /\ u = [Opn o; Tn i; Tn w] /\
     b' = ((b ++ [("linear_op", Opn o)]) ++ [("in", Tn i)]) ++ [("weights", Tn w)]).
Proof.
  intros L1 L2 L3. unfold linear_ast. rewrite b_oin. split.
  - intros (ts & b1 & u1 & v & K1 & R & K2 & ->).
    apply b_ops in K1 as (o' & E & Ty & -> & S1). injection E as <-.
    apply nstep_new in S1; [|exact L1]. subst b1.
    apply choose_cons in K2 as (d & ds & b2 & v1 & v2 & E & K2 & K3 & ->).
    apply tensors_cons in E as (i & ts' & -> & -> & ->).
    apply b_tensor in K2 as (t & E & -> & S2). injection E as <-.
    apply nstep_new in S2; [|rewrite lookup_app, L2; reflexivity]. subst b2.
    apply choose_cons in K3 as (d & ds & b3 & v3 & v4 & E & K3 & K4 & ->).
    apply tensors_cons in E as (w & ts & -> & -> & ->).
    apply b_var in K3 as (t & E & Vw & -> & S3). injection E as <-.
    apply nstep_new in S3; [|rewrite !lookup_app, L3; reflexivity]. subst b3.
    apply choose_nil in K4 as (E & -> & ->). apply tensors_nil in E. subst ts.
    exists i, w. split; [|split; reflexivity]. split; [exact Ty|]. split; [exact R|exact Vw].
  - intros (i & w & (Ty & R & Vw) & -> & ->).
    exists [i; w], (b ++ [("linear_op", Opn o)]), [Opn o], [Tn i; Tn w].
    split; [apply b_ops; exists o; repeat split; auto; apply nstep_new; [exact L1|reflexivity]|].
    split; [exact R|]. split; [|reflexivity].
    apply choose_cons. exists (DNode (Tn i)), (tensors [w]), ((b ++ [("linear_op", Opn o)]) ++ [("in", Tn i)]), [Tn i], [Tn w].
    split; [reflexivity|]. split.
    { apply b_tensor. exists i. repeat split; auto. apply nstep_new; [rewrite lookup_app, L2; reflexivity|reflexivity]. }
    split; [|reflexivity]. apply choose_cons. exists (DNode (Tn w)), [], (((b ++ [("linear_op", Opn o)]) ++ [("in", Tn i)]) ++ [("weights", Tn w)]), [Tn w], [].
    split; [reflexivity|]. split.
    { apply b_var. exists w. repeat split; auto. apply nstep_new; [rewrite !lookup_app, L3; reflexivity|reflexivity]. }
    split; [|reflexivity]. apply choose_nil. auto.
Qed.

Lemma nstep_none b x b' : nstep None b x b' <-> b' = b.
Proof. reflexivity. Qed.

Ltac names_eqb n :=
  repeat match goal with
  | |- context [String.eqb ?k n] => rewrite (String.eqb_sym k n)
  end.

Lemma affine_sound b d u : binds g affine_ast [] b d u ->
  exists t l, d = DNode (Tn t) /\ dense_layer g t l /\ describes b t l None.
Proof.
  intros H. unfold affine_ast in H. apply b_tin in H as (t & a & b1 & v & -> & C & S & K & _).
  apply nstep_new in S; [|reflexivity]. simpl in S. subst b1. exists t.
  destruct K as [[K|[K|[]]]|[K|[]]].
  - apply b_oin in K as (ts & b2 & u1 & v1 & K1 & R & K2 & _).
    apply b_ops in K1 as (a' & E & Ty & _ & S1). injection E as <-. apply nstep_none in S1. subst b2.
    apply choose_cons in K2 as (d & ds & b3 & v2 & v3 & E & K2 & K3 & _).
    apply tensors_cons in E as (y & ts' & -> & -> & ->).
    apply b_tin in K2 as (y' & o & b4 & v4 & E & Cy & S2 & K2 & _). injection E as <-. apply nstep_none in S2. subst b4.
    apply b_linear in K2 as (i & w & Lin & _ & ->); try reflexivity.
    apply choose_cons in K3 as (d & ds & b5 & v5 & v6 & E & K3 & K4 & _).
    apply tensors_cons in E as (bb & ts & -> & -> & ->).
    apply b_var in K3 as (t' & E & Vb & _ & S3). injection E as <-. apply nstep_new in S3; [|reflexivity]. subst b5.
    apply choose_nil in K4 as (E & -> & _). apply tensors_nil in E. subst ts.
    exists (mkLayer i o w (Some bb)). split; [reflexivity|]. split; [eapply dl_bias_right; eauto|].
    intros n. simpl. names_eqb n.
    repeat match goal with |- context [if ?c then _ else _] => destruct c eqn:? end;
      repeat match goal with H : String.eqb _ _ = true |- _ => apply String.eqb_eq in H; subst end;
      try discriminate; reflexivity.
  - apply b_oin in K as (ts & b2 & u1 & v1 & K1 & R & K2 & _).
    apply b_ops in K1 as (a' & E & Ty & _ & S1). injection E as <-. apply nstep_none in S1. subst b2.
    apply choose_cons in K2 as (d & ds & b3 & v2 & v3 & E & K2 & K3 & _).
    apply tensors_cons in E as (bb & ts' & -> & -> & ->).
    apply b_var in K2 as (t' & E & Vb & _ & S3). injection E as <-. apply nstep_new in S3; [|reflexivity]. subst b3.
    apply choose_cons in K3 as (d & ds & b5 & v5 & v6 & E & K3 & K4 & _).
    apply tensors_cons in E as (y & ts & -> & -> & ->).
    apply b_tin in K3 as (y' & o & b4 & v4 & E & Cy & S2 & K3 & _). injection E as <-. apply nstep_none in S2. subst b4.
    apply b_linear in K3 as (i & w & Lin & _ & ->); try reflexivity.
    apply choose_nil in K4 as (E & -> & _). apply tensors_nil in E. subst ts.
    exists (mkLayer i o w (Some bb)). split; [reflexivity|]. split; [eapply dl_bias_left; eauto|].
    intros n. simpl. names_eqb n.
    repeat match goal with |- context [if ?c then _ else _] => destruct c eqn:? end;
      repeat match goal with H : String.eqb _ _ = true |- _ => apply String.eqb_eq in H; subst end;
      try discriminate; reflexivity.
  - apply b_linear in K as (i & w & Lin & _ & ->); try reflexivity.
    exists (mkLayer i a w None). split; [reflexivity|]. split; [apply dl_linear; auto|].
    intros n. simpl. names_eqb n.
    repeat match goal with |- context [if ?c then _ else _] => destruct c eqn:? end;
      repeat match goal with H : String.eqb _ _ = true |- _ => apply String.eqb_eq in H; subst end;
      try discriminate; reflexivity.
Qed.

Ltac ex := repeat match goal with |- exists _, _ => eexists end.
Ltac bt := apply b_tensor; eexists; split; [reflexivity|]; split; [reflexivity|];
  first [reflexivity | apply nstep_new; reflexivity].
Ltac bv := apply b_var; eexists; split; [reflexivity|]; split; [eassumption|]; split; [reflexivity|];
  first [reflexivity | apply nstep_new; reflexivity].
Ltac bo := first [apply b_ops | apply b_op]; eexists; split; [reflexivity|]; split; [eassumption|]; split; [reflexivity|];
  first [reflexivity | apply nstep_new; reflexivity].
Ltac bin := apply b_oin; do 4 eexists; split; [|split; [eassumption|split; [|reflexivity]]].
Ltac cc := apply choose_cons; do 5 eexists; split; [reflexivity|]; split; [|split; [|reflexivity]].
Ltac cn := apply choose_nil; split; [reflexivity|]; split; reflexivity.
Ltac btin := apply b_tin; do 4 eexists; split; [reflexivity|]; split; [eassumption|];
  split; [first [reflexivity | apply nstep_new; reflexivity]|]; split; [|reflexivity].
Ltac blin := apply b_linear; [reflexivity..|]; do 2 eexists; split; [eassumption|]; split; reflexivity.

Lemma affine_complete t l : dense_layer g t l -> exists b u, binds g affine_ast [] b (DNode (Tn t)) u.
Proof.
  intros H. destruct H as [o i w C L|a y bb o i w C Ty R Vb Cy L|a y bb o i w C Ty R Vb Cy L]; do 2 eexists; unfold affine_ast; btin.
  - right. left. blin.
  - left. left. bin; [bo|]. cc; [btin; blin|]. cc; [bv|cn].
  - left. right. left. bin; [bo|]. cc; [bv|]. cc; [btin; blin|cn].
Qed.

Lemma computed_det t o1 o2 : computed_by g t o1 -> computed_by g t o2 -> o1 = o2.
Proof. intros (_ & a & S1 & ->) (_ & b & S2 & ->). rewrite (sees_det _ _ _ _ S1 S2). reflexivity. Qed.
Lemma reads_det o l1 l2 : reads g o l1 -> reads g o l2 -> l1 = l2.
Proof. apply Forall2_sees_det. Qed.
Lemma var_leaf t o : tg_isvar g t = true -> computed_by g t o -> False.
Proof. intros K (L & _). unfold is_leaf in L. simpl in L. rewrite K in L. discriminate. Qed.
Lemma linear_det o i w i' w' : linear g o i w -> linear g o i' w' -> i = i' /\ w = w'.
Proof. intros (_ & R & _) (_ & R' & _). pose proof (reads_det _ _ _ R R') as E. injection E as -> ->. auto. Qed.
Ltac types := unfold linear, has_type in *; simpl in *;
  repeat match goal with
  | H : _ /\ _ |- _ => destruct H
  | H : _ \/ _ |- _ => destruct H
  end; try contradiction; congruence.

Lemma dense_det t l l' : dense_layer g t l -> dense_layer g t l' -> l = l'.
Proof.
  intros H H'. destruct H as [o i w C L|a y bb o i w C Ty R Vb Cy L|a y bb o i w C Ty R Vb Cy L];
    destruct H' as [o' i' w' C' L'|a' y' bb' o' i' w' C' Ty' R' Vb' Cy' L'|a' y' bb' o' i' w' C' Ty' R' Vb' Cy' L'];
    pose proof (computed_det _ _ _ C C') as E; subst; try (exfalso; clear - L Ty'; types); try (exfalso; clear - Ty L'; types).
  - destruct (linear_det _ _ _ _ _ L L') as [-> ->]. reflexivity.
  - pose proof (reads_det _ _ _ R R') as E; injection E as -> ->.
    pose proof (computed_det _ _ _ Cy Cy') as E; subst. destruct (linear_det _ _ _ _ _ L L') as [-> ->]. reflexivity.
  - pose proof (reads_det _ _ _ R R') as E; injection E as -> ->. destruct (var_leaf _ _ Vb' Cy).
  - pose proof (reads_det _ _ _ R R') as E; injection E as -> ->. destruct (var_leaf _ _ Vb' Cy).
  - pose proof (reads_det _ _ _ R R') as E; injection E as -> ->.
    pose proof (computed_det _ _ _ Cy Cy') as E; subst. destruct (linear_det _ _ _ _ _ L L') as [-> ->]. reflexivity.
Qed.

(* ------------------------------------------------------------------------ *)
(** * The other patterns *)

Lemma nstep_old n b x y b' : n <> EmptyString -> lookup b n = Some y -> nstep (Some n) b x b' <-> x = y /\ b' = b.
Proof.
  intros N L. unfold nstep, naming. destruct n as [|a s]; [congruence|]. rewrite L. split.
  - intros [[K ->]|[K _]]; [|discriminate]. split; congruence.
  - intros [-> ->]. auto.
Qed.

Ltac ib1 := match goal with
  | H : binds g (Inn (T _) _) _ _ _ _ |- _ =>
      apply b_tin in H; let t := fresh "t" in let o := fresh "o" in let b := fresh "b" in let v := fresh "v" in
      let E := fresh "E" in let C := fresh "C" in let S := fresh "S" in
      destruct H as (t & o & b & v & E & C & S & H & _)
  | H : binds g (Inn _ _) _ _ _ _ |- _ =>
      apply b_oin in H; let t := fresh "ts" in let b := fresh "b" in let u := fresh "u" in let v := fresh "v" in
      let R := fresh "R" in let K := fresh "K" in
      destruct H as (t & b & u & v & H & R & K & _)
  | H : binds g (T _) _ _ _ _ |- _ =>
      apply b_tensor in H; let t := fresh "t" in let E := fresh "E" in let S := fresh "S" in
      destruct H as (t & E & _ & S)
  | H : binds g (V _) _ _ _ _ |- _ =>
      apply b_var in H; let t := fresh "t" in let E := fresh "E" in let S := fresh "S" in let Y := fresh "Y" in
      destruct H as (t & E & Y & _ & S)
  | H : binds g (O _ _) _ _ _ _ |- _ =>
      apply b_op in H; let t := fresh "t" in let E := fresh "E" in let S := fresh "S" in let Y := fresh "Y" in
      destruct H as (t & E & Y & _ & S)
  | H : binds g (adds_ast _) _ _ _ _ |- _ =>
      apply b_ops in H; let t := fresh "t" in let E := fresh "E" in let S := fresh "S" in let Y := fresh "Y" in
      destruct H as (t & E & Y & _ & S)
  | H : binds g (Choice (map (O _) _)) _ _ _ _ |- _ =>
      apply b_ops in H; let t := fresh "t" in let E := fresh "E" in let S := fresh "S" in let Y := fresh "Y" in
      destruct H as (t & E & Y & _ & S)
  | H : choose (binds g) (_ :: _) _ _ _ _ |- _ =>
      apply choose_cons in H; let d := fresh "d" in let ds := fresh "ds" in let b := fresh "b" in
      let v := fresh "v" in let w := fresh "w" in let E := fresh "E" in let K := fresh "K" in
      destruct H as (d & ds & b & v & w & E & K & H & _);
      let t := fresh "t" in let ts := fresh "ts" in
      apply tensors_cons in E; destruct E as (t & ts & -> & -> & ->)
  | H : choose (binds g) [] _ _ _ _ |- _ =>
      apply choose_nil in H; let E := fresh "E" in destruct H as (E & -> & _); apply tensors_nil in E; subst
  | H : DNode (Tn _) = DNode (Tn _) |- _ => injection H; clear H; intros <-
  | H : DNode (Opn _) = DNode (Opn _) |- _ => injection H; clear H; intros <-
  | H : _ = DNode (Tn _) |- _ => subst
  | H : nstep None _ _ _ |- _ => apply nstep_none in H; subst
  | H : nstep (Some _) _ _ _ |- _ => apply nstep_new in H; [|reflexivity]; simpl in H; subst
  | H : nstep (Some _) _ _ _ |- _ => eapply nstep_old in H; [|discriminate|reflexivity];
      let E := fresh "E" in destruct H as [E ->]; injection E; clear E; intros ->
  | H : one_of _ (_ :: _) |- _ => destruct H as [H|H]
  | H : one_of _ [] |- _ => destruct H
  | H : binds g (Choice (_ :: _)) _ _ _ _ |- _ => destruct H as [H|H]
  | H : binds g (Choice []) _ _ _ _ |- _ => destruct H
  | H : binds g scale_ast _ _ _ _ |- _ => destruct H as [H|[H|[]]]
  end.
Ltac ib := repeat ib1.
Ltac looks := intros n; simpl; names_eqb n;
    repeat match goal with |- context [if ?c then _ else _] => destruct c eqn:? end;
      repeat match goal with H : String.eqb _ _ = true |- _ => apply String.eqb_eq in H; subst end;
      try discriminate; reflexivity.

Lemma embed_sound b d u : binds g embed_ast [] b d u ->
  exists t l a, d = DNode (Tn t) /\ embedding g t l a /\ describes b t l a.
Proof.
  intros H. unfold embed_ast in H. ib.
  - do 3 eexists. split; [reflexivity|]. split; [eapply em_v1; eauto|]. looks.
  - do 3 eexists. split; [reflexivity|]. split; [eapply em_v2; eauto|]. looks.
Qed.
Lemma embed_complete t l a : embedding g t l a -> exists b u, binds g embed_ast [] b (DNode (Tn t)) u.
Proof.
  intros H. destruct H; do 2 eexists; unfold embed_ast; btin.
  - left. bin; [bo|]. cc; [bv|]. cc; [bt|cn].
  - right. left. bin; [bo|]. cc; [bv|]. cc; [bt|]. cc; [bt|cn].
Qed.
Lemma embed_det t l l' a a' : embedding g t l a -> embedding g t l' a' -> l = l' /\ a = a'.
Proof.
  intros [o i w C Ty R Vw|o i w x C Ty R Vw] [o' i' w' C' Ty' R' Vw'|o' i' w' x' C' Ty' R' Vw'];
    pose proof (computed_det _ _ _ C C') as E; subst; try (exfalso; clear - Ty Ty'; types);
    pose proof (reads_det _ _ _ R R') as E; injection E; intros; subst; auto.
Qed.

Ltac sc := first [eapply sc_right; eassumption | eapply sc_left; eassumption].
Lemma scale_shift_sound b d u : binds g scale_shift_ast [] b d u ->
  exists t i s sh, d = DNode (Tn t) /\ scale_shift g t i s sh /\ scale_describes b t i s sh.
Proof.
  intros H. unfold scale_shift_ast in H. ib;
  (do 4 eexists; split; [reflexivity|]; split;
   [first [eapply ss_scale; [eassumption|sc] | eapply ss_right; [eassumption..|sc] | eapply ss_left; [eassumption..|sc]] | looks]).
Qed.
Lemma scale_shift_complete t i s sh : scale_shift g t i s sh -> exists b u, binds g scale_shift_ast [] b (DNode (Tn t)) u.
Proof.
  intros [o i' s' C [Ty R Y|Ty R Y]|a y o i' s' bb C Ta Ra Yb Cy [Ty R Y|Ty R Y]|a y o i' s' bb C Ta Ra Yb Cy [Ty R Y|Ty R Y]];
    do 2 eexists; unfold scale_shift_ast; btin.
  - right. right. left. left. bin; [bo|]. cc; [bt|]. cc; [bv|cn].
  - right. right. left. right. left. bin; [bo|]. cc; [bv|]. cc; [bt|cn].
  - left. bin; [bo|]. cc; [btin; left; bin; [bo|]; cc; [bt|]; cc; [bv|cn]|]. cc; [bv|cn].
  - left. bin; [bo|]. cc; [btin; right; left; bin; [bo|]; cc; [bv|]; cc; [bt|cn]|]. cc; [bv|cn].
  - right. left. bin; [bo|]. cc; [bv|]. cc; [btin; left; bin; [bo|]; cc; [bt|]; cc; [bv|cn]|cn].
  - right. left. bin; [bo|]. cc; [bv|]. cc; [btin; right; left; bin; [bo|]; cc; [bv|]; cc; [bt|cn]|cn].
Qed.

Lemma fused_sound b d u : binds g fused_ast [] b d u ->
  exists t i s o, d = DNode (Tn t) /\ fused_norm g t i s o /\ norm_describes b t i (Some s) (Some o).
Proof.
  intros H. unfold fused_ast in H. ib. do 4 eexists. split; [reflexivity|]. split; [econstructor; eassumption|].
  repeat split.
Qed.
Lemma fused_complete t i s o : fused_norm g t i s o -> exists b u, binds g fused_ast [] b (DNode (Tn t)) u.
Proof.
  intros H. destruct H. do 2 eexists. unfold fused_ast. btin. bin; [bo|]. do 5 (cc; [bt|]). cn.
Qed.

Ltac idv := first [eapply id_plain; eassumption | eapply id_scaled; eassumption].
Lemma bn_sound b d u : binds g bn_ast [] b d u ->
  exists t i s o, d = DNode (Tn t) /\ batch_norm g t i s o /\ norm_describes b t i s o.
Proof.
  intros H. unfold bn_ast in H. ib;
  (do 4 eexists; split; [reflexivity|]; split;
   [first [eapply bn_offset; [eassumption..|idv|eassumption|eassumption|eassumption|eassumption|eassumption|eassumption]
          |eapply bn_plain; [eassumption..|idv|eassumption|eassumption|eassumption]]
   |repeat split]).
Qed.
Ltac bt2 := apply b_tensor; eexists; split; [reflexivity|]; split; [reflexivity|];
  first [reflexivity | apply nstep_new; reflexivity | eapply nstep_old; [discriminate|reflexivity|split; reflexivity]].
Lemma bn_complete t i s o : batch_norm g t i s o -> exists b u, binds g bn_ast [] b (DNode (Tn t)) u.
Proof.
  intros [a x y m i' v sub o' z m2 w sc C Ta Ra Cx Tm Rm I Cy Ts Rs Cz Tz Rz
         |a x y m i' v m2 w sc C Ta Ra Cx Tm Rm I Cy Tz Rz];
  destruct I as [r Cr Tr|m' x' s' r Cr Tr Rr Cx' Tx']; do 2 eexists; unfold bn_ast; btin; (bin; [bo|]).
  - cc; [btin; bin; [bo|]; cc; [bt|]; cc; [btin; left; bo|cn]|].
    cc; [btin; left; bin; [bo|]; cc; [bt|]; cc; [btin; bin; [bo|]; cc; [bt|]; cc; [bt2|cn]|cn]|cn].
  - cc; [btin; bin; [bo|]; cc; [bt|]; cc; [btin; right; left; bin; [bo|]; cc; [btin; bo|]; cc; [bt|cn]|cn]|].
    cc; [btin; left; bin; [bo|]; cc; [bt|]; cc; [btin; bin; [bo|]; cc; [bt|]; cc; [bt2|cn]|cn]|cn].
  - cc; [btin; bin; [bo|]; cc; [bt|]; cc; [btin; left; bo|cn]|].
    cc; [btin; right; left; bin; [bo|]; cc; [bt|]; cc; [bt2|cn]|cn].
  - cc; [btin; bin; [bo|]; cc; [bt|]; cc; [btin; right; left; bin; [bo|]; cc; [btin; bo|]; cc; [bt|cn]|cn]|].
    cc; [btin; right; left; bin; [bo|]; cc; [bt|]; cc; [bt2|cn]|cn].
Qed.
End Asts.

(* ------------------------------------------------------------------------ *)
(** * The matchers of the patterns *)

Lemma consumed_general g q P : wf_graph g -> denotes q P ->
  exists f, matcher_with_consumed g q = Ok f /\
    forall x,
      (exists b c used, binds g P [] b (DNode x) used /\ same_nodes c used /\ f (DNode x) = Ok (VPair b c)) \/
      ((forall b used, ~ binds g P [] b (DNode x) used) /\ exists v, f (DNode x) = Ok v /\ truthy v = false).
Proof.
  intros W D. destruct (consumed_first g q P W D) as (f & E & H). exists f. split; [exact E|].
  intros x. specialize (H x). destruct (found g P x) as [|[b c] l] eqn:F.
  - right. split; [|exact H]. intros b used K.
    assert (I : In (b, set_union [] used) (found g P x)) by (apply (found_binds g P x _ _ W); eauto).
    rewrite F in I. exact I.
  - left. assert (I : In (b, c) (found g P x)) by (rewrite F; left; reflexivity).
    apply (found_binds g P x _ _ W) in I as (used & K & ->). exists b, (set_union [] used), used.
    split; [exact K|]. split; [apply set_union_nil|exact H].
Qed.

Ltac recognise W D :=
  destruct (consumed_general _ _ _ W D) as (f & E & H); exists f; split; [exact E|];
  intros x; destruct (H x) as [(b & c & used & K & C & R)|[N R]]; [left|right].

Lemma affine_recognised g : wf_graph g ->
  exists f, matcher_with_consumed g (gp_Affine g) = Ok f /\ forall x,
    (exists t l b c, x = Tn t /\ dense_layer g t l /\ (forall l', dense_layer g t l' -> l' = l) /\
       describes b t l None /\ f (DNode x) = Ok (VPair b c)) \/
    ((forall t l, x = Tn t -> ~ dense_layer g t l) /\ exists v, f (DNode x) = Ok v /\ truthy v = false).
Proof.
  intros W. recognise W (affine_denotes g).
  - destruct (affine_sound g _ _ _ K) as (t & l & Ex & L & De). injection Ex as ->. exists t, l, b, c.
    split; [reflexivity|]. split; [exact L|]. split; [|auto]. intros l' L'. exact (dense_det g t l' l L' L).
  - split; [|exact R]. intros t l -> L. destruct (affine_complete g t l L) as (b & u & K). exact (N b u K).
Qed.
Lemma embed_recognised g : wf_graph g ->
  exists f, matcher_with_consumed g (gp_Embed g) = Ok f /\ forall x,
    (exists t l a b c, x = Tn t /\ embedding g t l a /\ (forall l' a', embedding g t l' a' -> l' = l /\ a' = a) /\
       describes b t l a /\ f (DNode x) = Ok (VPair b c)) \/
    ((forall t l a, x = Tn t -> ~ embedding g t l a) /\ exists v, f (DNode x) = Ok v /\ truthy v = false).
Proof.
  intros W. recognise W (embed_denotes g).
  - destruct (embed_sound g _ _ _ K) as (t & l & a & Ex & L & De). injection Ex as ->. exists t, l, a, b, c.
    split; [reflexivity|]. split; [exact L|]. split; [|auto]. intros l' a' L'. exact (embed_det g t l' l a' a L' L).
  - split; [|exact R]. intros t l a -> L. destruct (embed_complete g t l a L) as (b & u & K). exact (N b u K).
Qed.
Lemma scale_shift_recognised g : wf_graph g ->
  exists f, matcher_with_consumed g (gp_ScaleAndShift g) = Ok f /\ forall x,
    (exists t i s sh b c, x = Tn t /\ scale_shift g t i s sh /\ scale_describes b t i s sh /\ f (DNode x) = Ok (VPair b c)) \/
    ((forall t i s sh, x = Tn t -> ~ scale_shift g t i s sh) /\ exists v, f (DNode x) = Ok v /\ truthy v = false).
Proof.
  intros W. recognise W (scale_shift_denotes g).
  - destruct (scale_shift_sound g _ _ _ K) as (t & i & s & sh & Ex & L & De). injection Ex as ->.
    exists t, i, s, sh, b, c. auto.
  - split; [|exact R]. intros t i s sh -> L. destruct (scale_shift_complete g t i s sh L) as (b & u & K). exact (N b u K).
Qed.
Lemma fused_recognised g : wf_graph g ->
  exists f, matcher_with_consumed g (gp_FusedBatchNormOutput g) = Ok f /\ forall x,
    (exists t i s o b c, x = Tn t /\ fused_norm g t i s o /\ norm_describes b t i (Some s) (Some o) /\ f (DNode x) = Ok (VPair b c)) \/
    ((forall t i s o, x = Tn t -> ~ fused_norm g t i s o) /\ exists v, f (DNode x) = Ok v /\ truthy v = false).
Proof.
  intros W. recognise W (fused_denotes g).
  - destruct (fused_sound g _ _ _ K) as (t & i & s & o & Ex & L & De). injection Ex as ->.
    exists t, i, s, o, b, c. auto.
  - split; [|exact R]. intros t i s o -> L. destruct (fused_complete g t i s o L) as (b & u & K). exact (N b u K).
Qed.
Lemma bn_recognised g : wf_graph g ->
  exists f, matcher_with_consumed g (gp_BatchNorm g) = Ok f /\ forall x,
    (exists t i s o b c, x = Tn t /\ batch_norm g t i s o /\ norm_describes b t i s o /\ f (DNode x) = Ok (VPair b c)) \/
    ((forall t i s o, x = Tn t -> ~ batch_norm g t i s o) /\ exists v, f (DNode x) = Ok v /\ truthy v = false).
Proof.
  intros W. recognise W (bn_denotes g).
  - destruct (bn_sound g _ _ _ K) as (t & i & s & o & Ex & L & De). injection Ex as ->.
    exists t, i, s, o, b, c. auto.
  - split; [|exact R]. intros t i s o -> L. destruct (bn_complete g t i s o L) as (b & u & K). exact (N b u K).
Qed.
