(** What extract_convolution_patches returns. *)
From Coq Require Import String.
From Verif Require Import Base.Py.
From mathcomp Require Import all_ssreflect all_algebra.
From Verif.Ops Require Import Tensor Model Spec TensorProofs ConvProofs.
Set Implicit Arguments.
Unset Strict Implicit.
Unset Printing Implicit Defensive.
Import GRing.Theory Num.Theory.
Local Open Scope ring_scope.

Section Patches.
Variable F : rcfType.
Notation tensor := (tensor F).

(** The identity matrix, reshaped into a filter with one output channel per filter position
    and input channel. *)
Lemma eye_filter (k : seq nat) (cin : nat) : let n := (num_entries k * cin)%N in
  exists e, tf_reshape (tf_eye F n) [seq Some d | d <- k ++ [:: cin; n]] = Ok e /\
    shp e = k ++ [:: cin; n] /\
    forall j ci c, in_shape k j -> (ci < cin)%N -> (c < n)%N ->
      at_ e (j ++ [:: ci; c]) = (ravel (k ++ [:: cin]) (j ++ [:: ci]) == c)%:R.
Proof.
move=> n.
have hn : num_entries (k ++ [:: cin; n]) = (n * n)%N by rewrite num_entries_cat /= muln1 mulnA.
rewrite reshape_known; last by rewrite hn /= muln1.
eexists; split; first by []; split=> // j ci c hj hci hc /=.
have hin : in_shape (k ++ [:: cin]) (j ++ [:: ci]).
  by rewrite in_shape_cat ?(in_shape_size hj) // hj /= hci.
have hlt := ravel_lt hin; rewrite num_entries_cat /= muln1 -/n in hlt.
have -> : ravel (k ++ [:: cin; n]) (j ++ [:: ci; c]) =
          ravel (shp (tf_eye F n)) [:: ravel (k ++ [:: cin]) (j ++ [:: ci]); c].
  rewrite !ravel_cat ?(in_shape_size hj) //= !muln1 !addn0.
  by rewrite mulnDl addnA mulnA.
by rewrite nth_flat //= hlt hc.
Qed.

Lemma spatial_onlyP rank s given : spelled s given ->
  (2 <= rank)%N -> (forall l, s = Some l -> size l = (rank - 2)%N) -> spatial_only rank given = s.
Proof.
move=> hs hr hl; case: hs => [->|[l [a [c [e ->]]]]] /=.
  case: s hl => [l|] //= /(_ l erefl) ->; case: eqP => // e.
  by case: rank hr e => [|[|r]] // _; rewrite !subSS subn0; elim: r => // r ih [/ih].
rewrite e; congr Some; rewrite size_cat /= addn1 (hl _ e).
by rewrite -[in X in X == _](addn2 (rank - 2)) subnK // eqxx -cat_cons spatial_cons.
Qed.

Lemma geometry_sizes (n k s d : seq nat) m : size n = m -> size k = m -> size s = m -> size d = m ->
  size (dims n k s d) = m.
Proof. by move=> h1 h2 h3 h4; rewrite size_map !size_zip h1 h2 h3 h4 !minnn. Qed.

Lemma size_spatial (s : seq nat) : (1 < size s)%N -> size (spatial s) = (size s - 2)%N.
Proof. by case: s => [|a [|b s]] //= _; rewrite /spatial !subSS subn0 size_take /= ltnSn. Qed.

Lemma rank_lt r : (1 < r)%N -> (r - 2 < r)%N. Proof. by case: r => [|[|r]] // _; rewrite !subSS subn0. Qed.
Lemma rank_S r : (1 < r)%N -> ((r - 2).+1 = r - 1)%N. Proof. by case: r => [|[|r]] // _; rewrite !subSS !subn0. Qed.
Lemma rank_SS r : (1 < r)%N -> ((r - 1).+1 = r)%N. Proof. by case: r => [|[|r]] // _; rewrite !subSS !subn0. Qed.

(** The patches of an accepted convolution. *)
Theorem conv_patches (x f y : tensor) p strides rates gstrides grates fmt (static : bool) :
  channels_last fmt -> spelled strides gstrides -> spelled rates grates ->
  convolution x f p strides rates = Ok y ->
  let k := take (size (shp f) - 2) (shp f) in
  let cin := last 0%N (shp x) in
  let g := geometry (shp x) (shp f) strides rates in
  let osp := [seq d_out p d | d <- g] in
  (static /\ head 0%N (shp x) != 0%N) \/ num_entries (osp ++ k ++ [:: cin]) != 0%N ->
  exists t, extract_convolution_patches x (shp f) p gstrides grates fmt static = Ok t /\
    shp t = head 0%N (shp x) :: osp ++ k ++ [:: cin] /\
    forall b o j ci, (b < head 0%N (shp x))%N -> in_shape osp o -> in_shape k j -> (ci < cin)%N ->
      at_ t (b :: o ++ j ++ [:: ci]) = window p g x b o j ci.
Proof.
move=> hfmt hs hd hc k cin g osp hb.
have hca := convolutionP hc.
have /andP [hr1 hr2] := ca_rank hca.
have hr0 : (1 < size (shp x))%N by apply: leq_trans hr1.
have hf := ca_filter hca.
have hcin := ca_in hca; rewrite -hf in hcin.
have hk2 : (size k = size (shp x) - 2)%N by rewrite size_take hf rank_lt.
rewrite /extract_convolution_patches channel_lastP //=.
rewrite (_ : (size (shp f) < 2)%N = false); last by rewrite hf ltnNge hr0.
rewrite -hcin eqxx /= -/cin -/k.
set n := (num_entries k * cin)%N.
have [e [he [hse hae]]] := eye_filter k cin.
rewrite -/n in he hse hae; rewrite he /=.
rewrite (spatial_onlyP hs) //; last first.
  by move=> l e1; have := ca_strides hca; rewrite e1.
rewrite (spatial_onlyP hd) //; last first.
  by move=> l e1; have := ca_rates hca; rewrite e1.
have hsf : shp f = k ++ [:: cin; nth 0%N (shp f) (size (shp f) - 1)].
  rewrite -{1}(cat_take_drop (size (shp f) - 2) (shp f)) -/k; congr cat.
  rewrite (drop_nth 0%N); last by rewrite hf rank_lt.
  rewrite -hcin rank_S ?hf // (drop_nth 0%N); last by rewrite hf rank_SS.
  by rewrite rank_SS // -hf drop_size.
have hkc : take (size (shp f) - 1) (shp f) = k ++ [:: cin].
  rewrite {2}hsf take_cat hk2 hf.
  by rewrite -rank_S // ltnNge leqnSn /= subSnn.
have hse2 : size (shp e) = size (shp f) by rewrite hse hsf !size_cat.
have hte : take (size (shp f) - 1) (shp e) = take (size (shp f) - 1) (shp f).
  rewrite hkc hse take_cat hk2 hf.
  by rewrite -rank_S // ltnNge leqnSn /= subSnn.
have [r hrr] := convolution_shape hc hse2 hte.
rewrite hrr /=.
have hca' := convolutionP hrr.
have hg : geometry (shp x) (shp e) strides rates = g.
  rewrite /g /geometry; congr (dims _ _ _ _).
  by rewrite hse take_cat hk2 ltnn subnn take0 cats0 /k hf.
have hke : take (size (shp x) - 2) (shp e) = k.
  by rewrite hse take_cat hk2 ltnn subnn take0 cats0.
have hlast : nth 0%N (shp e) (size (shp x) - 1) = n.
  by rewrite hse nth_cat hk2 -rank_S // ltnNge leqnSn /= subSnn.
have hro := ca_out hca'; rewrite hg hke hlast -/cin -/osp in hro.
have hspr : spatial (shp r) = osp by rewrite hro /= spatial_cons.
have hgs : size g = (size (shp x) - 2)%N.
  apply: geometry_sizes; rewrite ?size_spatial ?(ca_strides hca) ?(ca_rates hca) //.
  by move: hk2; rewrite /k hf.
set s := head 0%N (shp x) :: osp ++ k ++ [:: cin].
have hns : num_entries s = num_entries (shp r).
  by rewrite hro /s /= !num_entries_cat /= !muln1.
have hresh : tf_reshape r ((if static && (head 0%N (shp x) != 0%N) then Some (head 0%N (shp x)) else None)
      :: [seq Some n0 | n0 <- spatial (shp r) ++ k ++ [:: cin]]) = Ok (Tensor s (fun idx => nth 0 (flat r) (ravel s idx))).
  rewrite hspr; case: ifP => hst; first by rewrite -[_ :: _]/([seq Some n0 | n0 <- s]) reshape_known.
  have hnz : num_entries (osp ++ k ++ [:: cin]) != 0%N by case: hb => // [[h1 h2]]; rewrite h1 h2 in hst.
  have e3 : num_entries (shp r) = (head 0%N (shp x) * num_entries (osp ++ k ++ [:: cin]))%N by rewrite -hns.
  have -> : s = (num_entries (shp r) %/ num_entries (osp ++ k ++ [:: cin]))%N :: osp ++ k ++ [:: cin].
    by rewrite e3 mulnK ?lt0n.
  by apply: reshape_head => //; rewrite e3 dvdn_mull.
eexists; split; first exact: hresh; split=> // b o j ci hbb ho hj hci.
change (nth 0 (flat r) (ravel s (b :: o ++ j ++ [:: ci])) = window p g x b o j ci).
have hin : in_shape (k ++ [:: cin]) (j ++ [:: ci]) by rewrite in_shape_cat ?(in_shape_size hj) // hj /= hci.
set m := ravel (k ++ [:: cin]) (j ++ [:: ci]).
have hm : (m < n)%N by have := ravel_lt hin; rewrite num_entries_cat /= muln1.
have -> : ravel s (b :: o ++ j ++ [:: ci]) = ravel (shp r) (b :: o ++ [:: m]).
  by rewrite hro /s /m [shp _]/= !ravel_cons !ravel_cat ?(in_shape_size ho) ?(in_shape_size hj) // !shapeE.
rewrite nth_flat; last first.
  by rewrite hro /= hbb in_shape_cat ?(in_shape_size ho) // ho /= hm.
rewrite hro /= spatial_cons cats1 last_rcons /conv_entry.
transitivity (\sum_(i <- indices (k ++ [:: cin]))
   window p g x b o (take (size k) i) (last 0%N i) * (ravel (k ++ [:: cin]) i == m)%:R); last first.
  by rewrite sum_pick // take_size_cat ?(in_shape_size hj) // last_cat1.
rewrite -sum_rcons; apply: eq_big_seq => i; rewrite mem_indices => hi.
apply: eq_bigr => c _; rewrite hae //.
by rewrite take_size_cat ?(in_shape_size hi) // last_cat1.
Qed.
End Patches.
