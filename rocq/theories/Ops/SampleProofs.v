(** Sub-sampling does not change the expected statistic. *)
From Coq Require Import String.
From Verif Require Import Base.Py.
From mathcomp Require Import all_ssreflect all_algebra all_fingroup.
From Verif.Ops Require Import Tensor Model Spec TensorProofs ConvProofs PatchProofs MatrixProofs GradProofs.
Set Implicit Arguments.
Unset Strict Implicit.
Unset Printing Implicit Defensive.
Import GRing.Theory Num.Theory.
Local Open Scope ring_scope.

Section Sample.
Variable F : rcfType.
Notation tensor := (tensor F).

Lemma sum_perm_same n (q : 'I_n -> F) (i j : 'I_n) :
  \sum_(s : 'S_n) q (s i) = \sum_(s : 'S_n) q (s j).
Proof.
rewrite (reindex_inj (mulgI (tperm i j))) /=.
by apply: eq_bigr => s _; rewrite permM tpermL.
Qed.

Lemma sum_perm n (q : 'I_n -> F) (i : 'I_n) :
  n%:R * (\sum_(s : 'S_n) q (s i)) = n`!%:R * (\sum_k q k) :> F.
Proof.
transitivity (\sum_(j < n) \sum_(s : 'S_n) q (s j)).
  rewrite [RHS](eq_bigr (fun=> \sum_(s : 'S_n) q (s i))); last by move=> j _; apply: (sum_perm_same q j i).
  by rewrite sumr_const card_ord mulr_natl.
rewrite exchange_big /= (eq_bigr (fun=> \sum_k q k)).
  by rewrite sumr_const card_Sn mulr_natl.
by move=> s _; rewrite [RHS](reindex_inj (@perm_inj _ s)).
Qed.

Lemma natf_neq0 n : (0 < n)%N -> n%:R != 0 :> F.
Proof. by rewrite pnatr_eq0 lt0n. Qed.

Lemma nth_shuffled n (s : 'S_n) k (i : 'I_n) : (i < k)%N ->
  nth 0%N (take k (shuffled s)) i = nat_of_ord (s i).
Proof.
move=> hi; rewrite nth_take // /shuffled (nth_map i) ?size_enum_ord //.
by rewrite nth_ord_enum.
Qed.

Lemma size_shuffled n (s : 'S_n) k : (k <= n)%N -> size (take k (shuffled s)) = k.
Proof. by move=> h; rewrite size_takel // size_map size_enum_ord. Qed.

(** The average of a function over a sample without repetition. *)
Lemma mean_sample n k (q : nat -> F) : (0 < k <= n)%N ->
  mean_over_orders (fun s : 'S_n => (\sum_(r < k) q (nth 0%N (take k (shuffled s)) r)) / k%:R) =
  (\sum_(r < n) q r) / n%:R.
Proof.
case/andP=> hk hkn; rewrite /mean_over_orders -big_distrl /=.
rewrite exchange_big /=.
have hn : (0 < n)%N by apply: leq_trans hkn.
have hr (r : 'I_k) : \sum_(s : 'S_n) q (nth 0%N (take k (shuffled s)) r) = n`!%:R / n%:R * (\sum_(m < n) q m).
  have e : nat_of_ord r = nat_of_ord (widen_ord hkn r) by [].
  rewrite (eq_bigr (fun s : 'S_n => q (s (widen_ord hkn r)))); last first.
    by move=> s _; rewrite e nth_shuffled // -e.
  apply: (mulfI (natf_neq0 hn)).
  rewrite (sum_perm (fun i : 'I_n => q i)) mulrA mulrCA mulfV ?mulr1 //.
  exact: natf_neq0.
rewrite (eq_bigr _ (fun r _ => hr r)) sumr_const card_ord.
have h1 := natf_neq0 hk; have h2 := natf_neq0 hn.
have h3 : n`!%:R != 0 :> F by apply: natf_neq0; rewrite fact_gt0.
rewrite -[X in X / k%:R]mulr_natr mulfK // -[n`!%:R / _ * _]mulrA [n`!%:R * _]mulrC mulfK //.
by rewrite mulrC.
Qed.

Lemma mean_const n (v : F) : mean_over_orders (fun _ : 'S_n => v) = v.
Proof.
rewrite /mean_over_orders sumr_const card_Sn -[X in X / _]mulr_natr mulfK //.
by apply: natf_neq0; rewrite fact_gt0.
Qed.

Lemma eq_mean n (v w : 'S_n -> F) : (forall s, v s = w s) -> mean_over_orders v = mean_over_orders w.
Proof. by move=> h; rewrite /mean_over_orders (eq_bigr _ (fun s _ => h s)). Qed.

Lemma compute_covE (t : tensor) m n i j : shp t = [:: m; n] ->
  at_ (compute_cov t) [:: i; j] =
  (\sum_(r < m) at_ t [:: nat_of_ord r; i] * at_ t [:: nat_of_ord r; j]) / m%:R.
Proof.
move=> hs; rewrite /compute_cov hs /=.
set a := (X in _ = X).
have -> : (\sum_(r < m) at_ t [:: nat_of_ord r; j] * at_ t [:: nat_of_ord r; i]) / m%:R = a.
  by congr (_ / _); apply: eq_bigr => r _; rewrite mulrC.
by rewrite -mulr2n -[X in X / _]mulr_natr mulfK // pnatr_eq0.
Qed.

(** A row of the matrix, with the one for the bias. *)
Definition with_one (t : tensor) (n r i : nat) : F := if (i < n)%N then at_ t [:: r; i] else 1.

Lemma cov_bias (has_bias : bool) (t : tensor) m n : shp t = [:: m; n] ->
  exists t', (if has_bias then append_homog t else Ok t) = Ok t' /\ shp t' = [:: m; (n + has_bias)%N] /\
    forall i j, (i < n + has_bias)%N -> (j < n + has_bias)%N ->
      at_ (compute_cov t') [:: i; j] = (\sum_(r < m) with_one t n r i * with_one t n r j) / m%:R.
Proof.
move=> hs; case: has_bias; last first.
  exists t; rewrite addn0; split=> //; split=> // i j hi hj.
  by rewrite (compute_covE _ _ hs) /with_one hi hj.
have [t' [h1 [h2 h3]]] : exists t', append_homog t = Ok t' /\ shp t' = [:: m; (n + 1)%N] /\
    forall r i, at_ t' [:: r; i] = with_one t n r i.
  by rewrite /append_homog /tf_concat1 hs /= eqxx; eexists.
exists t'; split=> //; split=> // i j _ _; rewrite (compute_covE _ _ h2).
by congr (_ / _); apply: eq_bigr => r _; rewrite !h3.
Qed.

Lemma patchable_matrix fn (x : tensor) fs p st rt fmt static g k cin :
  patchable fn x fs p st rt fmt static g k cin ->
  exists t M, convin_extract fn x fs p st rt fmt static = Ok t /\
    convin_patches_flat t fs = Ok M /\ is_patch_matrix p g x k cin M.
Proof.
case.
- move=> {}x f y {}p strides rates gs gr {}fmt {}static h1 h2 h3 h4 {}g h5 h6.
  apply: (matrix_convolution h1 h2 h3 h4 _ h6).
  have hca := convolutionP h4; have /andP [hr1 hr2] := ca_rank hca.
  have hr0 : (1 < size (shp x))%N by apply: leq_trans hr1.
  move: h5; rewrite -rank_S ?(ca_filter hca) // (take_nth 0%N); last by rewrite (ca_filter hca) rank_lt.
  by rewrite -cats1 -(ca_in hca).
- move=> {}x kh kw {}cin cout {}p sh sw rates rh rw {}fmt {}static b h w h1 h2 h3 {}g h4.
  exact: (@matrix_image F x kh kw cin cout p sh sw rates rh rw fmt static b h w h1 h2 h3 h4).
- move=> {}x {}cin cout {}p strides rates rh rw {}fmt b h w h1 h2 h3.
  exact: (@matrix_pointwise F x cin cout p strides rates rh rw fmt b h w h1 h2 h3).
Qed.

Lemma patchable_size fn (x : tensor) fs p st rt fmt static g k cin :
  patchable fn x fs p st rt fmt static g k cin -> size g = size k.
Proof. by case=> // x0 f y p0 strides rates gs gr fmt0 st0 _ _ _ h g0 _ _; case: (size_geometry h) => -> ->. Qed.

Lemma patchable_pos fn (x : tensor) fs p st rt fmt static g k cin :
  patchable fn x fs p st rt fmt static g k cin -> (0 < num_entries k * cin)%N.
Proof.
case.
- move=> {}x f y {}p strides rates gs gr {}fmt {}static _ _ _ hc {}g hne _.
  have hca := convolutionP hc; have /andP [hr1 hr2] := ca_rank hca.
  have hr0 : (1 < size (shp x))%N by apply: leq_trans hr1.
  move: hne; rewrite -rank_S ?(ca_filter hca) // (take_nth 0%N); last by rewrite (ca_filter hca) rank_lt.
  by rewrite -cats1 -(ca_in hca) num_entries_cat !shapeE ?muln1 lt0n.
- move=> {}x kh kw {}cin cout {}p sh sw rates rh rw {}fmt {}static b h w _ /and5P [h1 h2 _ _ /and3P [_ _ h3]] *.
  by rewrite !shapeE ?muln1 !muln_gt0 !lt0n h1 h2 h3.
- by move=> *; rewrite /= !mul1n lt0n.
Qed.

(** Other inputs of the same size, in any number. *)
Lemma convolution_batch (x x' f : tensor) p strides rates y : convolution x f p strides rates = Ok y ->
  behead (shp x') = behead (shp x) -> size (shp x') = size (shp x) ->
  exists y', convolution x' f p strides rates = Ok y'.
Proof.
move=> hc hb hs; move: (hc); rewrite /convolution.
have hsp : spatial (shp x') = spatial (shp x) by rewrite /spatial hb hs.
have hl : last 0%N (shp x') = last 0%N (shp x).
  have := ca_rank (convolutionP hc); move: hb hs.
  by case: (shp x) => [|a [|a' l]] //; case: (shp x') => [|c [|c' l']] //= [-> ->].
rewrite hs hsp hl; case: ifP => // h1; case: ifP => // h2; case: ifP => // h3; case: ifP => // h4; case: ifP => // h5 _.
by eexists.
Qed.

Lemma patchable_batch fn (x x' : tensor) fs p st rt fmt static g k cin :
  patchable fn x fs p st rt fmt static g k cin ->
  behead (shp x') = behead (shp x) -> size (shp x') = size (shp x) -> head 0%N (shp x') != 0%N ->
  num_entries [seq d_out p d | d <- g] != 0%N ->
  patchable fn x' fs p st rt fmt static g k cin.
Proof.
case.
- move=> {}x f y {}p strides rates gs gr {}fmt {}static h1 h2 h3 h4 {}g h5 h6 hb hs hh ho.
  have [y' hy'] := convolution_batch h4 hb hs.
  have hl : last 0%N (shp x) = last 0%N (shp x').
    have := ca_rank (convolutionP h4); move: hb hs.
    by case: (shp x) => [|a [|a' l]] //; case: (shp x') => [|c [|c' l']] //= [-> ->].
  have hg : g = geometry (shp x') (shp f) strides rates.
    by rewrite /g /geometry /spatial hb hs.
  rewrite hl hg; apply: (by_convolution h1 h2 h3 hy' h5).
  by right; rewrite -hg.
- move=> {}x kh kw {}cin cout {}p sh sw rates rh rw {}fmt {}static b h w h1 h2 h3 {}g h4 hb hs hh ho.
  have hx' : shp x' = [:: head 0%N (shp x'); h; w; cin].
    by move: hb hs; rewrite h1; case: (shp x') => [|c l] //= ->.
  exact: (by_image _ _ _ hx' h2 h3 h4).
- move=> {}x {}cin cout {}p strides rates rh rw {}fmt b h w h1 h2 h3 hb hs hh ho.
  have hx' : shp x' = [:: head 0%N (shp x'); h; w; cin].
    by move: hb hs; rewrite h1; case: (shp x') => [|c l] //= ->.
  exact: (by_pointwise _ _ _ _ _ _ hx' h2 h3).
Qed.

(** The sum over the rows of the patch matrix. *)
Lemma sum_rows B osp (q : nat -> F) :
  \sum_(r < B * num_entries osp) q r = \sum_(b < B) \sum_(o <- indices osp) q (ravel (B :: osp) (nat_of_ord b :: o)).
Proof.
have -> : (B * num_entries osp)%N = num_entries ([:: B] ++ osp) by rewrite !shapeE.
rewrite -sum_ravel sum_indices_cat sum_indices1; by [].
Qed.

(** The patches of chosen examples. *)
Lemma gather_rows p g (x : tensor) k cin M l M' :
  is_patch_matrix p g x k cin M -> size g = size k -> all (fun b => b < head 0%N (shp x))%N l ->
  is_patch_matrix p g (tf_gather x l) k cin M' ->
  forall b o i, (b < size l)%N -> in_shape [seq d_out p d | d <- g] o -> (i < num_entries k * cin)%N ->
    at_ M' [:: ravel (size l :: [seq d_out p d | d <- g]) (b :: o); i] =
    at_ M [:: ravel (head 0%N (shp x) :: [seq d_out p d | d <- g]) (nth 0%N l b :: o); i].
Proof.
move=> hM hg hl hM' b o i hb ho hi.
have hk : num_entries (k ++ [:: cin]) = (num_entries k * cin)%N by rewrite !shapeE.
rewrite -hk in hi; set c := nth [::] (indices (k ++ [:: cin])) i.
have hc : in_shape (k ++ [:: cin]) c by rewrite -mem_indices mem_nth ?size_indices.
have hci : ravel (k ++ [:: cin]) c = i by apply: ravel_nth.
have hcs : size c = (size k).+1 by rewrite (in_shape_size hc) size_cat addn1.
have hcc : c = take (size k) c ++ [:: last 0%N c].
  rewrite -{1}(cat_take_drop (size k) c); congr cat.
  rewrite (drop_nth 0%N) ?hcs // drop_oversize ?hcs //.
  by rewrite -nth_last hcs.
have /andP [hj hl2] : in_shape k (take (size k) c) && in_shape [:: cin] [:: last 0%N c].
  by rewrite -in_shape_cat -?hcc // size_takel // hcs.
rewrite /= andbT in hl2.
have hll : (nth 0%N l b < head 0%N (shp x))%N by apply: (allP hl); rewrite mem_nth.
rewrite -hci hcc (matrix_window hM hg hll ho hj hl2).
by rewrite (matrix_window hM' hg hb ho hj hl2).
Qed.

Lemma ceil_mul_bounds num den n : (0 < num <= den)%N -> (0 < n)%N -> (0 < ceil_mul num den n <= n)%N.
Proof.
case/andP=> h1 h2 hn; rewrite /ceil_mul.
have hd : (0 < den)%N by apply: leq_trans h2.
apply/andP; split.
  rewrite divn_gt0 //; case: den hd h2 => // d _ _ /=.
  by rewrite -add1n leq_add2r muln_gt0 h1 hn.
rewrite -ltnS ltn_divLR // mulSn.
apply: (@leq_trans (den * n + den.-1).+1); first by rewrite ltnS leq_add2r leq_mul2r h2 orbT.
by rewrite -addnS prednK // addnC mulnC.
Qed.

(** The expected statistic under both kinds of sub-sampling. *)
Theorem sampling_unbiased fn (x : tensor) fs p st rt fmt static g k cin (has_bias : bool)
    (oin : option (nat * nat)) (opat : option (nat * nat * nat)) :
  let B := head 0%N (shp x) in
  let osp := [seq d_out p d | d <- g] in
  let size_ := (num_entries k * cin)%N in
  let m := match oin with Some (num, den) => ceil_mul num den B | None => B end in
  let N := (m * num_entries osp)%N in
  patchable fn x fs p st rt fmt static g k cin ->
  B != 0%N -> num_entries osp != 0%N ->
  match oin with Some (num, den) => (0 < num <= den)%N | None => true end ->
  match opat with Some (mx, num, den) => [&& 0 < mx, 0 < num & 0 < den]%N | None => true end ->
  exists (C : 'S_B -> 'S_N -> tensor) (C0 : tensor),
    (forall s1 s2, convin_new_cov fn (Sampling oin opat (fun=> shuffled s1) (fun=> shuffled s2)) has_bias
                     x fs p st rt fmt static = Ok (C s1 s2)) /\
    (forall sh1 sh2, convin_new_cov fn (Sampling None None sh1 sh2) has_bias
                     x fs p st rt fmt static = Ok C0) /\
    forall i j, (i < size_ + has_bias)%N -> (j < size_ + has_bias)%N ->
      mean_over_orders (fun s1 => mean_over_orders (fun s2 => at_ (C s1 s2) [:: i; j])) = at_ C0 [:: i; j].
Proof.
move=> B osp size_ m N hp hB ho hin hpat.
have hg := patchable_size hp.
have [t0 [M [ht0 [hM hpm]]]] := patchable_matrix hp.
have hsM : shp M = [:: (B * num_entries osp)%N; size_] by case: hpm.
have hB0 : (0 < B)%N by rewrite lt0n.
have hmB : (0 < m <= B)%N.
  by rewrite /m; case: oin hin {m N} => [[num den] h|_]; [apply: ceil_mul_bounds|rewrite hB0 leqnn].
have /andP [hm0 hmle] := hmB.
have hx0 : (0 < size (shp x))%N by move: hB0; rewrite /B; case: (shp x).
(* the inputs used *)
pose xs (s1 : 'S_B) := match oin with Some _ => tf_gather x (take m (shuffled s1)) | None => x end.
pose bs (s1 : 'S_B) b := match oin with Some _ => nth 0%N (take m (shuffled s1)) b | None => b end.
have hxs s1 : behead (shp (xs s1)) = behead (shp x) /\ size (shp (xs s1)) = size (shp x) /\ head 0%N (shp (xs s1)) = m.
  rewrite /xs; case e: oin => [[num den]|]; last by rewrite /m e.
  split=> //; split; first by rewrite /= size_behead prednK.
  by rewrite /= size_shuffled.
have hpx s1 : exists t M', convin_extract fn (xs s1) fs p st rt fmt static = Ok t /\
    convin_patches_flat t fs = Ok M' /\ is_patch_matrix p g (xs s1) k cin M'.
  apply: patchable_matrix; have [h1 [h2 h3]] := hxs s1.
  by apply: (patchable_batch hp h1 h2) => //; rewrite h3 -lt0n.
have rows s1 t M' : convin_extract fn (xs s1) fs p st rt fmt static = Ok t ->
    convin_patches_flat t fs = Ok M' -> is_patch_matrix p g (xs s1) k cin M' ->
    forall b o i, (b < m)%N -> in_shape osp o -> (i < size_)%N ->
    at_ M' [:: ravel (m :: osp) (b :: o); i] = at_ M [:: ravel (B :: osp) (bs s1 b :: o); i].
  rewrite /xs /bs; case e: oin => [[num den]|] h1 h2 h3 b o i hb hoo hi.
    have hl : all (fun b => b < B)%N (take m (shuffled s1)).
      apply/allP => y /mem_take /mapP [z _ ->]; exact: ltn_ord.
    have := gather_rows hpm hg hl h3 (b := b) (o := o) (i := i).
    by rewrite size_shuffled // => ->.
  have em : m = B by rewrite /m e.
  have eM : M' = M by move: h2; have := h1; rewrite ht0 => [[<-]]; rewrite hM => [[]].
  by rewrite eM em.
(* the statistic of one draw *)
pose q s1 i j b := \sum_(o <- indices osp)
   (if (i < size_)%N then at_ M [:: ravel (B :: osp) (bs s1 b :: o); i] else 1) *
   (if (j < size_)%N then at_ M [:: ravel (B :: osp) (bs s1 b :: o); j] else 1).
have draw s1 : exists C : 'S_N -> tensor,
    (forall s2, convin_new_cov fn (Sampling oin opat (fun=> shuffled s1) (fun=> shuffled s2)) has_bias
                     x fs p st rt fmt static = Ok (C s2)) /\
    forall i j, (i < size_ + has_bias)%N -> (j < size_ + has_bias)%N ->
      mean_over_orders (fun s2 => at_ (C s2) [:: i; j]) = (\sum_(b < m) q s1 i j b) / N%:R.
  have [t [M' [h1 [h2 h3]]]] := hpx s1; have [e1 [e2 e3]] := hxs s1.
  have hsM' : shp M' = [:: N; size_] by case: h3 => -> _; rewrite e3.
  have hN : (0 < N)%N by rewrite muln_gt0 hm0 lt0n.
  have row_sum i j : \sum_(r < N) with_one M' size_ r i * with_one M' size_ r j = \sum_(b < m) q s1 i j b.
    rewrite (sum_rows m osp (fun r => with_one M' size_ r i * with_one M' size_ r j)).
    apply: eq_bigr => b _; apply: eq_big_seq => o; rewrite mem_indices => hoo; rewrite /with_one.
    by case: ifP => hi; case: ifP => hj; rewrite ?(rows s1 t M' h1 h2 h3 _ _ _ (ltn_ord b) hoo).
  have einp s2 : convin_new_cov fn (Sampling oin opat (fun=> shuffled s1) (fun=> shuffled s2)) has_bias
                     x fs p st rt fmt static =
     do pf <- match opat with
              | Some (mx, num, den) => subsample_patches (fun=> shuffled s2) mx num den M'
              | None => Ok M' end;
     do pf <- (if has_bias then append_homog pf else Ok pf);
     Ok (compute_cov pf).
    rewrite /convin_new_cov /=.
    have -> : match oin with
      | Some (num, den) => random_tensor_gather (fun=> shuffled s1) x (ceil_mul num den (head 0%N (shp x)))
      | None => x end = xs s1 by rewrite /xs /m; case: (oin) => [[num den]|].
    by rewrite h1 /= h2.
  have [pl [hpl hpl2]] : exists pl : 'S_N -> seq nat + unit,
     (forall s2, match opat with
              | Some (mx, num, den) => subsample_patches (fun=> shuffled s2) mx num den M'
              | None => Ok M' end = Ok (match pl s2 with inl l => tf_gather M' l | inr _ => M' end)) /\
     ((exists2 n, (0 < n <= N)%N & forall s2, pl s2 = inl (take n (shuffled s2))) \/ forall s2, pl s2 = inr tt).
    case: opat hpat {einp} => [[[mx num] den]|] hpat; last by exists (fun=> inr tt); split=> //; right.
    rewrite /subsample_patches hsM' /=.
    set np := minn mx _; case: ltnP => hnp.
      exists (fun s2 => inl (take np (shuffled s2))); split=> [s2|].
        by rewrite /random_tensor_gather.
      left; exists np => //; rewrite (ltnW hnp) andbT leq_min.
      case/and3P: hpat => a b c; rewrite a /ceil_mul divn_gt0 //=.
      have hs0 : (0 < size_)%N := patchable_pos hp.
      by case: (den) c => // d _; rewrite /= -add1n leq_add2r muln_gt0 b hs0.
    by exists (fun=> inr tt); split=> //; right.
  (* the covariance *)
  pose P s2 := match pl s2 with inl l => tf_gather M' l | inr _ => M' end.
  pose K s2 := match pl s2 with inl l => size l | inr _ => N end.
  have hP s2 : shp (P s2) = [:: K s2; size_] by rewrite /P /K; case: (pl s2) => [l|_]; rewrite /= hsM'.
  have hC s2 := cov_bias has_bias (hP s2).
  pose C s2 := match (if has_bias then append_homog (P s2) else Ok (P s2)) with
               | Ok t' => compute_cov t' | Raise _ => M' end.
  exists C; split.
    by move=> s2; rewrite einp hpl /= -/(P s2) /C; have [t' [-> _]] := hC s2.
  move=> i j hi hj.
  have eC s2 : at_ (C s2) [:: i; j] = (\sum_(r < K s2) with_one (P s2) size_ r i * with_one (P s2) size_ r j) / (K s2)%:R.
    by rewrite /C; have [t' [-> [_ h]]] := hC s2; rewrite h.
  rewrite (eq_mean eC) -row_sum.
  case: hpl2 => [[n hn hpl2]|hpl2].
    rewrite -(mean_sample (fun r => with_one M' size_ r i * with_one M' size_ r j) hn).
    apply: eq_mean => s2; rewrite /K /P hpl2 size_shuffled; last by case/andP: hn.
    by congr (_ / _).
  rewrite (eq_mean (w := fun=> (\sum_(r < N) with_one M' size_ r i * with_one M' size_ r j) / N%:R)) ?mean_const //.
  by move=> s2; rewrite /K /P hpl2.
have [C hC] : exists C : 'S_B -> 'S_N -> tensor, forall s1,
    (forall s2, convin_new_cov fn (Sampling oin opat (fun=> shuffled s1) (fun=> shuffled s2)) has_bias
                     x fs p st rt fmt static = Ok (C s1 s2)) /\
    forall i j, (i < size_ + has_bias)%N -> (j < size_ + has_bias)%N ->
      mean_over_orders (fun s2 => at_ (C s1 s2) [:: i; j]) = (\sum_(b < m) q s1 i j b) / N%:R.
  exists (fun s1 s2 => match convin_new_cov fn (Sampling oin opat (fun=> shuffled s1) (fun=> shuffled s2)) has_bias
                     x fs p st rt fmt static with Ok c => c | Raise _ => x end).
  move=> s1; have [C [h1 h2]] := draw s1; split.
    by move=> s2; rewrite h1.
  by move=> i j hi hj; rewrite -h2 //; apply: eq_mean => s2; rewrite h1.
have [t1 [e1 [e2 e3]]] := cov_bias has_bias hsM.
exists C, (compute_cov t1); split; first by move=> s1; case: (hC s1).
split; first by move=> s1 s2; rewrite /convin_new_cov /= ht0 /= hM /= e1.
move=> i j hi hj.
rewrite (eq_mean (w := fun s1 => (\sum_(b < m) q s1 i j b) / N%:R)); last by move=> s1; case: (hC s1) => _ ->.
rewrite e3 //.
pose qq b := \sum_(o <- indices osp)
   (if (i < size_)%N then at_ M [:: ravel (B :: osp) (b :: o); i] else 1) *
   (if (j < size_)%N then at_ M [:: ravel (B :: osp) (b :: o); j] else 1).
have -> : (\sum_(r < B * num_entries osp) with_one M size_ r i * with_one M size_ r j) = \sum_(b < B) qq b.
  exact: (sum_rows B osp (fun r => with_one M size_ r i * with_one M size_ r j)).
have hO : (num_entries osp)%:R != 0 :> F by apply: natf_neq0; rewrite lt0n.
have hmean : mean_over_orders (fun s1 : 'S_B => (\sum_(b < m) q s1 i j b) / m%:R) = (\sum_(b < B) qq b) / B%:R.
  rewrite /q /bs; case e: oin => [[num den]|].
    exact: (mean_sample qq hmB).
  have em : m = B by rewrite /m e.
  by rewrite em; apply: mean_const.
rewrite natrM invfM mulrA -hmean /mean_over_orders !big_distrl /=.
apply: eq_bigr => s1 _; rewrite /N natrM invfM mulrA; set a := \sum_(b < m) _.
by rewrite -!mulrA; congr (_ * (_ * _)); rewrite mulrC.
Qed.
End Sample.
