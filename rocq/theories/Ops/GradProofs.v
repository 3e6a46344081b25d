(** A convolution and the gradients of its parameters, computed from the patches. *)
From Coq Require Import String.
From Verif Require Import Base.Py.
From mathcomp Require Import all_ssreflect all_algebra.
From Verif.Ops Require Import Tensor Model Spec TensorProofs ConvProofs PatchProofs MatrixProofs.
Set Implicit Arguments.
Unset Strict Implicit.
Unset Printing Implicit Defensive.
Import GRing.Theory Num.Theory.
Local Open Scope ring_scope.

Section Grad.
Variable F : rcfType.
Notation tensor := (tensor F).

Lemma matrix_window p g (x : tensor) k cin M b o j ci :
  is_patch_matrix p g x k cin M -> size g = size k ->
  (b < head 0%N (shp x))%N -> in_shape [seq d_out p d | d <- g] o -> in_shape k j -> (ci < cin)%N ->
  at_ M [:: ravel (head 0%N (shp x) :: [seq d_out p d | d <- g]) (b :: o);
            ravel (k ++ [:: cin]) (j ++ [:: ci])] = window p g x b o j ci.
Proof.
move=> [_ hM] hg hb ho hj hci; apply: (is_read_fun (hM _ _ _ _ hb ho hj hci)).
by apply: window_read; rewrite ?(in_shape_size ho) ?size_map ?(in_shape_size hj).
Qed.

Lemma matrix_product p g (x f : tensor) k cin cout M b o c :
  is_patch_matrix p g x k cin M -> size g = size k -> shp f = k ++ [:: cin; cout] ->
  (b < head 0%N (shp x))%N -> in_shape [seq d_out p d | d <- g] o -> (c < cout)%N ->
  conv_entry p g x f k cin b o c =
  \sum_(i < num_entries k * cin)
    at_ M [:: ravel (head 0%N (shp x) :: [seq d_out p d | d <- g]) (b :: o); nat_of_ord i] *
    nth 0 (flat f) (i * cout + c).
Proof.
move=> hM hg hf hb ho hc; set row := ravel (_ :: _) _.
have -> : (num_entries k * cin)%N = num_entries (k ++ [:: cin]) by rewrite !shapeE.
rewrite -(sum_ravel _ (fun i => at_ M [:: row; i] * nth 0 (flat f) (i * cout + c))).
rewrite -sum_rcons /conv_entry; apply: eq_big_seq => j; rewrite mem_indices => hj.
apply: eq_bigr => ci _; rewrite (matrix_window hM) //; congr (_ * _).
have hin : in_shape (shp f) (j ++ [:: nat_of_ord ci; c]).
  by rewrite hf in_shape_cat ?(in_shape_size hj) // hj /= ltn_ord hc.
rewrite -(nth_flat hin) hf; congr nth.
have e1 : k ++ [:: cin; cout] = (k ++ [:: cin]) ++ [:: cout] by rewrite -catA.
have e2 : j ++ [:: nat_of_ord ci; c] = (j ++ [:: nat_of_ord ci]) ++ [:: c] by rewrite -catA.
rewrite e1 e2 (@ravel_cat (k ++ [:: cin]) [:: cout]); last by rewrite !size_cat (in_shape_size hj).
by rewrite !shapeE.
Qed.

(** The convolution itself. *)
Lemma convolution_product (x f y : tensor) p strides rates M b o c :
  convolution x f p strides rates = Ok y ->
  let g := geometry (shp x) (shp f) strides rates in
  let k := take (size (shp f) - 2) (shp f) in
  let cout := last 0%N (shp f) in
  is_patch_matrix p g x k (last 0%N (shp x)) M ->
  shp y = head 0%N (shp x) :: [seq d_out p d | d <- g] ++ [:: cout] /\
  ((b < head 0%N (shp x))%N -> in_shape [seq d_out p d | d <- g] o -> (c < cout)%N ->
   at_ y (b :: o ++ [:: c]) =
   \sum_(i < num_entries k * last 0%N (shp x))
     at_ M [:: ravel (head 0%N (shp x) :: [seq d_out p d | d <- g]) (b :: o); nat_of_ord i] *
     nth 0 (flat f) (i * cout + c)).
Proof.
move=> hc g k cout hM; have hca := convolutionP hc; have /andP [hr1 hr2] := ca_rank hca.
have hr0 : (1 < size (shp x))%N by apply: leq_trans hr1.
have [hgs hks] := size_geometry hc; have hf := ca_filter hca.
have hlast : nth 0%N (shp f) (size (shp x) - 1) = cout by rewrite /cout -nth_last hf subn1.
have hin := ca_in hca.
have hsh : shp f = k ++ [:: last 0%N (shp x); cout].
  rewrite -[LHS](cat_take_drop (size (shp f) - 2)) -/k; congr (_ ++ _).
  rewrite (drop_nth 0%N) ?hf ?rank_lt // (drop_nth 0%N) ?hf ?rank_S // ?rank_SS //.
  by rewrite hin hlast drop_oversize ?hf.
rewrite (ca_out hca) /= hlast; split=> // hb ho hcc.
have hgk : size g = size k by rewrite hgs hks.
rewrite -(matrix_product hM hgk hsh hb ho hcc) spatial_cons last_cat /=.
by rewrite /k hf.
Qed.

(** The gradient of the weighted output. *)
Definition case_gradient p g (x : tensor) (M G : tensor) rows b i c : F :=
  \sum_(o <- indices [seq d_out p d | d <- g])
    (if (i < rows)%N then at_ M [:: ravel (head 0%N (shp x) :: [seq d_out p d | d <- g]) (b :: o); i] else 1) *
    at_ G (b :: o ++ [:: c]).

Lemma gradient_output p g (x f : tensor) k cin cout M G b (bias : nat -> F) (hb : bool) :
  is_patch_matrix p g x k cin M -> size g = size k -> shp f = k ++ [:: cin; cout] ->
  (b < head 0%N (shp x))%N -> (hb = false -> forall c, bias c = 0) ->
  let rows := (num_entries k * cin)%N in
  weighted_output p g x f bias k cin cout G b =
  \sum_(i < rows + hb) \sum_(c < cout)
    case_gradient p g x M G rows b i c * param_entry f bias rows cout i c.
Proof.
move=> hM hg hf hbb hbias rows; rewrite /weighted_output.
transitivity (\sum_(o <- indices [seq d_out p d | d <- g]) \sum_(c < cout) \sum_(i < rows + hb)
   ((if (i < rows)%N then at_ M [:: ravel (head 0%N (shp x) :: [seq d_out p d | d <- g]) (b :: o); nat_of_ord i] else 1) *
    at_ G (b :: o ++ [:: nat_of_ord c])) * param_entry f bias rows cout i c); last first.
  under eq_bigr do rewrite exchange_big /=.
  rewrite exchange_big /=; apply: eq_bigr => i _; rewrite exchange_big /=; apply: eq_bigr => c _.
  by rewrite /case_gradient big_distrl.
apply: eq_big_seq => o; rewrite mem_indices => ho; apply: eq_bigr => c _.
rewrite (matrix_product hM hg hf hbb ho (ltn_ord c)) -/rows.
rewrite big_split_ord /= mulrDr; congr (_ + _).
  rewrite big_distrr /=; apply: eq_bigr => i _; rewrite /param_entry ltn_ord.
  by rewrite mulrA; congr (_ * _); rewrite mulrC.
case: hb hbias => hbias; last by rewrite big_ord0 hbias ?mulr0.
by rewrite big_ord1 /= addn0 /param_entry ltnn mul1r.
Qed.

(** The patches of the diagonal factor. *)
Lemma diag_patches (x : tensor) kh kw cin cout p sh sw dil rh rw has_bias b h w :
  shp x = [:: b; h; w; cin] -> [&& kh != 0, kw != 0, sh != 0, sw != 0, rh != 0, rw != 0 & cin != 0]%N ->
  dil = Some [:: 1; rh; rw; 1]%N \/ (dil = None /\ rh = 1%N /\ rw = 1%N) ->
  let g := [:: Dim h kh sh rh; Dim w kw sw rw] in
  let rows := (num_entries [:: kh; kw] * cin)%N in
  has (d_negative p) g = false ->
  exists t M, convdiag_patches x [:: kh; kw; cin; cout] [:: 1; sh; sw; 1]%N dil p has_bias = Ok t /\
    is_patch_matrix p g x [:: kh; kw] cin M /\
    shp t = b :: [seq d_out p d | d <- g] ++ [:: rows + has_bias]%N /\
    forall b0 o i, (b0 < b)%N -> in_shape [seq d_out p d | d <- g] o -> (i < rows + has_bias)%N ->
      at_ t (b0 :: o ++ [:: i]) =
      if (i < rows)%N then at_ M [:: ravel (b :: [seq d_out p d | d <- g]) (b0 :: o); i] else 1.
Proof.
move=> hx hpos hd g rows hg.
have hr : odflt [:: 1; 1; 1; 1]%N dil = [:: 1; rh; rw; 1]%N by case: hd => [->|[-> [-> ->]]].
have hrates : Some [:: 1; rh; rw; 1]%N = Some [:: 1; rh; rw; 1]%N \/ (Some [:: 1; rh; rw; 1]%N = None /\ rh = 1%N /\ rw = 1%N) by left.
have [t0 [M [ht0 [hM hpm]]]] := matrix_image cout None true hx hpos hrates hg.
have ht1 : extract_image_patches x [:: 1; kh; kw; 1]%N [:: 1; sh; sw; 1]%N [:: 1; rh; rw; 1]%N p = Ok t0.
  by move: ht0; rewrite /convin_extract hx.
have hst0 : shp t0 = b :: [seq d_out p d | d <- g] ++ [:: rows].
  move: ht1; rewrite /extract_image_patches hx.
  have /and5P [h1 h2 h3 h4 /and3P [h5 h6 h7]] := hpos.
  rewrite h1 h2 h3 h4 h5 h6; cbv zeta; rewrite -/g hg => [[<-]].
  by rewrite /rows !shapeE.
have /and5P [h1 h2 h3 h4 /and3P [h5 h6 h7]] := hpos.
have hn : num_entries (take (size [:: kh; kw; cin; cout] - 1) [:: kh; kw; cin; cout]) = rows.
  by rewrite /rows [take _ _]/= !shapeE ?mulnA.
have h0 : rows != 0%N by rewrite /rows !shapeE !muln_eq0 !negb_or h1 h2 h7.
have hst' : shp t0 = (b :: [seq d_out p d | d <- g]) ++ [:: rows] by rewrite hst0.
have hm1 : num_entries [:: rows] = rows by rewrite !shapeE.
have [M' [hM' [hsM' haM']]] := flat_matrix hn h0 hst' hm1.
have e : M' = M by move: hM'; rewrite hM => [[]].
rewrite {}e in hM' hsM' haM'.
exists (if has_bias then append_homog4 t0 else t0), M; split.
  by rewrite /convdiag_patches hr /= ht1.
split=> //.
have hat b0 o i : (b0 < b)%N -> in_shape [seq d_out p d | d <- g] o -> (i < rows)%N ->
    at_ t0 (b0 :: o ++ [:: i]) = at_ M [:: ravel (b :: [seq d_out p d | d <- g]) (b0 :: o); i].
  move=> hb ho hi.
  have e1 : in_shape (b :: [seq d_out p d | d <- g]) (b0 :: o) by apply/andP.
  have e2 : in_shape [:: rows] [:: i] by rewrite /= hi.
  have := haM' _ _ e1 e2; rewrite [X in at_ M [:: _; X]](_ : _ = i); last by rewrite !shapeE.
  by move=> ->.
case: has_bias; last first.
  rewrite addn0; split=> // b0 o i hb ho hi; rewrite hi; exact: hat.
split; first by rewrite /append_homog4 hst0 /= addn1.
move=> b0 o i hb ho hi.
case: o ho => [|y [|z [|? o]]]; rewrite /= ?andbF //= ?andbT => ho.
rewrite hst0 /=; case: eqP => [->|/eqP hne]; first by rewrite ltnn.
have hlt : (i < rows)%N by move: hi; rewrite addn1 ltnS leq_eqVlt (negbTE hne).
by rewrite hlt -(hat b0 [:: y; z] i) //= andbT.
Qed.

(** The statistic of the diagonal factor. *)
Lemma diag_statistic (x G : tensor) kh kw cin cout p sh sw dil rh rw (has_bias : bool) b h w :
  shp x = [:: b; h; w; cin] -> [&& kh != 0, kw != 0, sh != 0, sw != 0, rh != 0, rw != 0 & cin != 0]%N ->
  dil = Some [:: 1; rh; rw; 1]%N \/ (dil = None /\ rh = 1%N /\ rw = 1%N) ->
  let g := [:: Dim h kh sh rh; Dim w kw sw rw] in
  let rows := (num_entries [:: kh; kw] * cin)%N in
  has (d_negative p) g = false ->
  shp G = b :: [seq d_out p d | d <- g] ++ [:: cout] ->
  exists t C (D : nat -> nat -> nat -> F),
    convdiag_patches x [:: kh; kw; cin; cout] [:: 1; sh; sw; 1]%N dil p has_bias = Ok t /\
    convdiag_new_cov t G = Ok C /\ shp C = [:: (rows + has_bias)%N; cout] /\
    (forall b0 f bias, (b0 < b)%N -> shp f = [:: kh; kw; cin; cout] ->
       (has_bias = false -> forall c, bias c = 0) ->
       weighted_output p g x f bias [:: kh; kw] cin cout G b0 =
       \sum_(i < rows + has_bias) \sum_(c < cout) D b0 i c * param_entry f bias rows cout i c) /\
    (forall i c, (i < rows + has_bias)%N -> (c < cout)%N ->
       at_ C [:: i; c] = (\sum_(b0 < b) D b0 i c ^+ 2) / b%:R).
Proof.
move=> hx hpos hd g rows hg hG.
have [t [M [ht [hM [hst hat]]]]] := diag_patches cout has_bias hx hpos hd hg.
have e1 : shp t = [:: b; d_out p (Dim h kh sh rh); d_out p (Dim w kw sw rw); (rows + has_bias)%N] by rewrite hst.
have e2 : shp G = [:: b; d_out p (Dim h kh sh rh); d_out p (Dim w kw sw rw); cout] by rewrite hG.
eexists t, _, (case_gradient p g x M G rows); split=> //.
rewrite /convdiag_new_cov e1 e2 !eqxx; split; first reflexivity; split=> //; split.
  move=> b0 f bias hb hf hbias.
  have hb' : (b0 < head 0%N (shp x))%N by rewrite hx.
  have hf' : shp f = [:: kh; kw] ++ [:: cin; cout] by rewrite hf.
  exact: (gradient_output (hb := has_bias) G hM erefl hf' hb' hbias).
move=> i c hi hc; rewrite [LHS]/=; congr (_ / _); apply: eq_bigr => b0 _; congr (_ ^+ _).
rewrite /case_gradient [map _ _]/= (sum_indices_cat [:: d_out p (Dim h kh sh rh)] [:: d_out p (Dim w kw sw rw)]).
rewrite sum_indices1; apply: eq_bigr => y _; rewrite sum_indices1; apply: eq_bigr => z _.
rewrite hx [head _ _]/= -(hat b0 [:: nat_of_ord y; nat_of_ord z] i) //=.
by rewrite !ltn_ord.
Qed.
End Grad.
