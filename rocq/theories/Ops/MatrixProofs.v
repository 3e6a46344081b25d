(** The patches as a matrix, and the convolution and its gradient computed from it. *)
From Coq Require Import String.
From Verif Require Import Base.Py.
From mathcomp Require Import all_ssreflect all_algebra.
From Verif.Ops Require Import Tensor Model Spec TensorProofs ConvProofs PatchProofs.
Set Implicit Arguments.
Unset Strict Implicit.
Unset Printing Implicit Defensive.
Import GRing.Theory Num.Theory.
Local Open Scope ring_scope.

Section Matrix.
Variable F : rcfType.
Notation tensor := (tensor F).

Lemma falls_on_inj p g o k l l' : falls_on p g o k l -> falls_on p g o k l' -> l = l'.
Proof.
move=> [hs h] [hs' h']; apply: (@eq_from_nth _ 0%N); rewrite hs ?hs' // => i hi.
have [e _] := h i hi; have [e' _] := h' i hi.
by apply/eqP; rewrite -(eqn_add2r (d_before p (nth (Dim 0 0 0 0) g i))) e e'.
Qed.

Lemma is_read_fun p g (x : tensor) b o k c v v' :
  is_read p g x b o k c v -> is_read p g x b o k c v' -> v = v'.
Proof.
case=> [[l hl ->]|[hn ->]]; case=> [[l' hl' ->]|[hn' ->]] //.
- by rewrite (falls_on_inj hl hl').
- by case: (hn' l).
- by case: (hn l').
Qed.

Lemma size_geometry (x : tensor) f p strides rates y :
  convolution x f p strides rates = Ok y ->
  size (geometry (shp x) (shp f) strides rates) = (size (shp x) - 2)%N /\
  size (take (size (shp f) - 2) (shp f)) = (size (shp x) - 2)%N.
Proof.
move=> hc; have hca := convolutionP hc.
have /andP [hr1 hr2] := ca_rank hca.
have hr0 : (1 < size (shp x))%N by apply: leq_trans hr1.
have hk : size (take (size (shp x) - 2) (shp f)) = (size (shp x) - 2)%N.
  by rewrite size_take (ca_filter hca) rank_lt.
split; last by rewrite (ca_filter hca).
by apply: geometry_sizes; rewrite ?size_spatial ?(ca_strides hca) ?(ca_rates hca).
Qed.

(** Reshaping the patches to a matrix. *)
Lemma flat_matrix (t : tensor) fs n s m : num_entries (take (size fs - 1) fs) = n -> n != 0%N ->
  shp t = s ++ m -> num_entries m = n ->
  exists M, convin_patches_flat t fs = Ok M /\ shp M = [:: num_entries s; n] /\
    forall i j, in_shape s i -> in_shape m j -> at_ M [:: ravel s i; ravel m j] = at_ t (i ++ j).
Proof.
move=> hn h0 hs hm; rewrite /convin_patches_flat hn.
have htot : num_entries (shp t) = (num_entries s * n)%N by rewrite hs num_entries_cat hm.
have h1 : num_entries [:: n] = n by rewrite !shapeE.
have := @reshape_head F t [:: n]; rewrite h1 htot => /(_ h0 (dvdn_mull _ (dvdnn n))).
rewrite mulnK ?lt0n // => /= ->; eexists; split; first by []; split=> // i j hi hj.
have hij : in_shape (shp t) (i ++ j) by rewrite hs in_shape_cat ?(in_shape_size hi) // hi hj.
by rewrite -(nth_flat hij) [at_ _ _]/= hs !muln1 !addn0 ravel_cat ?(in_shape_size hi) // hm.
Qed.

(** Each way of extracting the patches gives the patch matrix. *)
Lemma matrix_convolution (x f y : tensor) p strides rates gstrides grates fmt (static : bool) :
  channels_last fmt -> spelled strides gstrides -> spelled rates grates ->
  convolution x f p strides rates = Ok y ->
  let k := take (size (shp f) - 2) (shp f) in
  let cin := last 0%N (shp x) in
  let g := geometry (shp x) (shp f) strides rates in
  num_entries (k ++ [:: cin]) != 0%N ->
  (static /\ head 0%N (shp x) != 0%N) \/ num_entries [seq d_out p d | d <- g] != 0%N ->
  exists t M, convin_extract ConvolutionPatches x (shp f) p gstrides grates fmt static = Ok t /\
    convin_patches_flat t (shp f) = Ok M /\ is_patch_matrix p g x k cin M.
Proof.
move=> hfmt hs hd hc k cin g h0 hb.
have hca := convolutionP hc.
have /andP [hr1 hr2] := ca_rank hca.
have hr0 : (1 < size (shp x))%N by apply: leq_trans hr1.
have [hgs hks] := size_geometry hc; rewrite -/g -/k in hgs hks.
have hb' : (static /\ head 0%N (shp x) != 0%N) \/ num_entries ([seq d_out p d | d <- g] ++ k ++ [:: cin]) != 0%N.
  by case: hb; [left|rewrite num_entries_cat muln_eq0 (negbTE h0) orbF; right].
have [t [ht [hst hat]]] := conv_patches hfmt hs hd hc hb'.
exists t.
have hkc : take (size (shp f) - 1) (shp f) = k ++ [:: cin].
  have hcin := ca_in hca; have hf := ca_filter hca.
  rewrite -rank_S ?hf // (take_nth 0%N); last by rewrite hf rank_lt.
  by rewrite -hcin -cats1 /k hf.
have hn : num_entries (take (size (shp f) - 1) (shp f)) = num_entries (k ++ [:: cin]) by rewrite hkc.
have hst' : shp t = (head 0%N (shp x) :: [seq d_out p d | d <- g]) ++ (k ++ [:: cin]) by rewrite hst.
have [M [hM [hsM haM]]] := flat_matrix hn h0 hst' erefl.
exists M; split=> //; split=> //; split.
  by rewrite hsM !shapeE.
move=> b o j ci hbb ho hj hci.
have hog : size o = size g by rewrite (in_shape_size ho) size_map.
have hjg : size j = size g by rewrite (in_shape_size hj) hgs hks.
rewrite haM; first by rewrite /= hat //; apply: window_read.
  by rewrite /= hbb ho.
by rewrite in_shape_cat ?(in_shape_size hj) // hj /= hci.
Qed.

Lemma matrix_image (x : tensor) kh kw cin cout p sh sw rates rh rw fmt static b h w :
  shp x = [:: b; h; w; cin] -> [&& kh != 0, kw != 0, sh != 0, sw != 0, rh != 0, rw != 0 & cin != 0]%N ->
  rates = Some [:: 1; rh; rw; 1]%N \/ (rates = None /\ rh = 1%N /\ rw = 1%N) ->
  let g := [:: Dim h kh sh rh; Dim w kw sw rw] in
  has (d_negative p) g = false ->
  exists t M, convin_extract ImagePatches x [:: kh; kw; cin; cout] p (Some [:: 1; sh; sw; 1]%N) rates fmt static = Ok t /\
    convin_patches_flat t [:: kh; kw; cin; cout] = Ok M /\ is_patch_matrix p g x [:: kh; kw] cin M.
Proof.
move=> hx /and5P [h1 h2 h3 h4 /and3P [h5 h6 h7]] hr g hg.
have -> : convin_extract ImagePatches x [:: kh; kw; cin; cout] p (Some [:: 1; sh; sw; 1]%N) rates fmt static =
  extract_image_patches x [:: 1; kh; kw; 1]%N [:: 1; sh; sw; 1]%N [:: 1; rh; rw; 1]%N p.
  by rewrite /convin_extract hx /=; case: hr => [->|[-> [-> ->]]].
rewrite /extract_image_patches hx h1 h2 h3 h4 h5 h6 -/g hg /=.
set t := Tensor _ _; exists t.
set n := (kh * kw * cin)%N.
have hn : num_entries (take (size [:: kh; kw; cin; cout] - 1) [:: kh; kw; cin; cout]) = n by rewrite /= !shapeE mulnA.
have h0 : n != 0%N by rewrite !muln_eq0 !negb_or h1 h2 h7.
have hst : shp t = [:: b; d_out p (Dim h kh sh rh); d_out p (Dim w kw sw rw)] ++ [:: n] by [].
have hat b0 y z m : at_ t [:: b0; y; z; m] =
    window p g x b0 [:: y; z] (take 2 (nth [::] (indices [:: kh; kw; cin]) m))
           (last 0%N (nth [::] (indices [:: kh; kw; cin]) m)) by [].
clearbody t.
have hm : num_entries [:: n] = n by rewrite !shapeE.
have [M [hM [hsM haM]]] := flat_matrix hn h0 hst hm.
exists M; split=> //; split=> //; split; first by rewrite hsM hx /= !shapeE.
move=> b0 o j ci hbb ho hj hci; rewrite hx in hbb *.
case: o ho => [|y [|z [|? o]]] //=; rewrite ?andbF //; rewrite ?andbT => /andP [hy hz].
have hin : in_shape ([:: kh; kw] ++ [:: cin]) (j ++ [:: ci]).
  by rewrite in_shape_cat ?(in_shape_size hj) // hj /= hci.
have hlt := ravel_lt hin.
set m := ravel ([:: kh; kw] ++ [:: cin]) (j ++ [:: ci]) in hlt *.
have hmn : (m < n)%N by move: hlt; rewrite !shapeE.
have em : ravel [:: n] [:: m] = m by rewrite !shapeE.
have hi1 : in_shape [:: b; d_out p (Dim h kh sh rh); d_out p (Dim w kw sw rw)] [:: b0; y; z].
  by rewrite /= hy hz !andbT; exact: hbb.
have hi2 : in_shape [:: n] [:: m] by rewrite /= hmn.
have := haM _ _ hi1 hi2; rewrite em => ->.
rewrite [_ ++ _]/= hat (_ : indices [:: kh; kw; cin] = indices ([:: kh; kw] ++ [:: cin])) // /m.
rewrite (nth_ravel hin) last_cat1 take_size_cat ?(in_shape_size hj) //.
by apply: window_read; rewrite ?(in_shape_size hj).
Qed.

Lemma image_1x1 (x : tensor) b h w cin : shp x = [:: b; h; w; cin] ->
  exists t, extract_image_patches x [:: 1; 1; 1; 1]%N [:: 1; 1; 1; 1]%N [:: 1; 1; 1; 1]%N VALID = Ok t /\
    shp t = [:: b; h; w; cin] /\
    forall b0 y z c, (y < h)%N -> (z < w)%N -> (c < cin)%N -> at_ t [:: b0; y; z; c] = at_ x [:: b0; y; z; c].
Proof.
move=> hx; rewrite /extract_image_patches hx.
have hd n : d_negative VALID (Dim n 1 1 1) = false by rewrite /= !addn1.
have hv n : d_out VALID (Dim n 1 1 1) = n by rewrite /d_out /d_extent /= addn1 subn1 /= divn1.
have hh : has (d_negative VALID) [:: Dim h 1 1 1; Dim w 1 1 1] = false by rewrite /has !hd.
cbv zeta; rewrite hh.
eexists; split; first reflexivity.
split.
  change ([:: b; d_out VALID (Dim h 1 1 1); d_out VALID (Dim w 1 1 1); 1 * 1 * cin]%N = [:: b; h; w; cin]).
  by rewrite !hv !mul1n.
move=> b0 y z c hy hz hc.
have hci : in_shape [:: 1; 1; cin]%N [:: 0; 0; c]%N by rewrite /= hc.
have := nth_ravel hci; rewrite [ravel _ _]/= !mul0n !add0n muln1 addn0 => e.
change (window VALID [:: Dim h 1 1 1; Dim w 1 1 1] x b0 [:: y; z]
   (take 2 (nth [::] (indices [:: 1; 1; cin]%N) c)) (last 0%N (nth [::] (indices [:: 1; 1; cin]%N) c)) = at_ x [:: b0; y; z; c]).
by rewrite e /= /window /= /position /= !muln1 !addn0 !subn0 hy hz.
Qed.

Lemma out_1 p n r : d_out p (Dim n 1 1 r) = n.
Proof. by case: p; rewrite /d_out /d_extent /= ?mul0n ?addn0 ?addn1 ?subn1 ?divn1. Qed.
Lemma before_1 p n r : d_before p (Dim n 1 1 r) = 0%N.
Proof.
case: p => //; rewrite /d_before out_1 /d_extent /= mul0n muln1.
by case: n => //= n; rewrite addn1 subnn.
Qed.

Lemma matrix_pointwise (x : tensor) cin cout p strides rates rh rw fmt b h w :
  shp x = [:: b; h; w; cin] -> cin != 0%N ->
  strides = None \/ strides = Some [:: 1; 1; 1; 1]%N ->
  let g := [:: Dim h 1 1 rh; Dim w 1 1 rw] in
  exists t M, convin_extract PointwisePatches x [:: 1; 1; cin; cout]%N p strides rates fmt true = Ok t /\
    convin_patches_flat t [:: 1; 1; cin; cout]%N = Ok M /\ is_patch_matrix p g x [:: 1; 1]%N cin M.
Proof.
move=> hx hc hs g.
have -> : convin_extract PointwisePatches x [:: 1; 1; cin; cout]%N p strides rates fmt true =
  extract_pointwise_conv2d_patches x [:: 1; 1; cin; cout]%N None true by case: hs => ->.
have [t0 [ht0 [hst0 hat0]]] := image_1x1 hx.
rewrite /extract_pointwise_conv2d_patches ht0 hx [X in exists t M, X = _ /\ _]/=.
have hrs : num_entries [:: b; h; w; 1; 1; cin]%N = num_entries (shp t0) by rewrite hst0 !shapeE !mul1n.
have := reshape_known hrs; rewrite [map _ _]/= => ->.
set t := Tensor _ _; exists t.
have hn : num_entries (take (size [:: 1; 1; cin; cout]%N - 1) [:: 1; 1; cin; cout]%N) = cin by rewrite /= !shapeE !mul1n.
have hm : num_entries [:: 1; 1; cin]%N = cin by rewrite !shapeE !mul1n.
have hst : shp t = [:: b; h; w] ++ [:: 1; 1; cin]%N by [].
have hat b0 y z ci : at_ t [:: b0; y; z; 0; 0; ci]%N = nth 0 (flat t0) (ravel (shp t0) [:: b0; y; z; ci]).
  by rewrite /t hst0 [LHS]/=; congr nth; rewrite /= !muln1 !mul1n !mul0n !addn0.
clearbody t.
have [M [hM [hsM haM]]] := flat_matrix hn hc hst hm.
exists M; split=> //; split=> //; split; first by rewrite hsM hx [map _ _]/= !out_1 !shapeE !mul1n.
move=> b0 o j ci hbb; rewrite hx in hbb *; rewrite [map _ _]/= !out_1.
case: o => [|y [|z [|? o]]] //=; rewrite ?andbF //; rewrite ?andbT => /andP [hy hz].
case: j => [|j1 [|j2 [|? j]]] //=; rewrite ?andbF //; rewrite ?andbT !ltnS !leqn0 => /andP [/eqP -> /eqP ->] hci.
rewrite /= in hbb.
have h1 : in_shape [:: b; h; w] [:: b0; y; z] by rewrite /= hbb hy hz.
have h2 : in_shape [:: 1; 1; cin]%N [:: 0; 0; ci]%N by rewrite /= hci.
have := haM _ _ h1 h2; rewrite /= !muln1 !addn0 => ->.
rewrite hat.
rewrite nth_flat; last by rewrite hst0 /= hbb hy hz hci.
rewrite hat0 //; left; exists [:: y; z] => //.
split=> // i; case: i => [|[|i]] // _; cbv zeta; rewrite [nth _ g _]/= before_1 /= !muln1 mul0n !addn0; by split.
Qed.
End Matrix.
