(** Facts about shapes, multi-indices and reshaping. *)
From Verif Require Import Base.Py.
From mathcomp Require Import all_ssreflect all_algebra.
From Verif.Ops Require Import Tensor.
Set Implicit Arguments.
Unset Strict Implicit.
Unset Printing Implicit Defensive.
Import GRing.Theory Num.Theory.
Local Open Scope ring_scope.

Lemma num_entries_cat s1 s2 : num_entries (s1 ++ s2) = (num_entries s1 * num_entries s2)%N.
Proof. by elim: s1 => [|n s1 ih] /=; rewrite ?mul1n // ih mulnA. Qed.

Lemma size_blocks n (f : nat -> seq (seq nat)) k :
  (forall i, size (f i) = k) -> size (flatten [seq f i | i <- iota 0 n]) = (n * k)%N.
Proof.
move=> h; rewrite size_flatten /shape -map_comp.
rewrite (@eq_map _ _ _ (fun=> k)); last by move=> i /=.
elim: n 0%N => [|n ih] m //=; by rewrite ih mulSn.
Qed.

Lemma size_indices s : size (indices s) = num_entries s.
Proof.
elim: s => [|n s ih] //=; rewrite (@size_blocks n _ (num_entries s)) //.
by move=> i; rewrite size_map.
Qed.

Lemma mem_indices s i : (i \in indices s) = in_shape s i.
Proof.
elim: s i => [|n s ih] [|j i] //=.
- by apply/negbTE/negP => /flattenP [l /mapP [k _ ->]] /mapP [t _].
- apply/flattenP/idP.
    by case=> l /mapP [k]; rewrite mem_iota add0n /= => hk -> /mapP [t]; rewrite ih => ht [-> ->]; rewrite hk.
  case/andP=> hj hi; exists [seq j :: t | t <- indices s].
    by apply/mapP; exists j => //; rewrite mem_iota.
  by apply/mapP; exists i; rewrite ?ih.
Qed.

Lemma in_shape_size s i : in_shape s i -> size i = size s.
Proof. by elim: s i => [|n s ih] [|j i] //= /andP [_ /ih ->]. Qed.

Lemma in_shape_cat s1 s2 i1 i2 : size i1 = size s1 ->
  in_shape (s1 ++ s2) (i1 ++ i2) = in_shape s1 i1 && in_shape s2 i2.
Proof. by elim: s1 i1 => [|n s1 ih] [|j i1] //= [h]; rewrite ih // andbA. Qed.

Lemma uniq_indices s : uniq (indices s).
Proof.
elim: s => [|n s ih] //=.
elim: n 0%N => [|n ihn] m //=.
rewrite cat_uniq ihn andbT map_inj_uniq ?ih /=; last by move=> a b [].
apply/hasPn => x /flattenP [l /mapP [k]]; rewrite mem_iota => /andP [hk _] -> /mapP [t _ ->].
by apply/negP => /mapP [u _ [h]]; rewrite h ltnn in hk.
Qed.

Lemma nth_blocks (T : Type) (d : T) n (f : nat -> seq T) k i j :
  (forall m, size (f m) = k) -> (i < n)%N -> (j < k)%N ->
  nth d (flatten [seq f m | m <- iota 0 n]) (i * k + j) = nth d (f i) j.
Proof.
move=> h hi hj.
suff {hi}: forall m, (i < n)%N -> nth d (flatten [seq f m | m <- iota m n]) (i * k + j) = nth d (f (m + i)%N) j.
  by move=> hm; rewrite hm.
elim: n i => [|n ih] [|i] //= m hi; rewrite nth_cat h.
  by rewrite mul0n add0n hj addn0.
by rewrite mulSn -addnA ltnNge leq_addr /= addKn ih // addSnnS.
Qed.

Lemma ravel_lt s i : in_shape s i -> (ravel s i < num_entries s)%N.
Proof.
elim: s i => [|n s ih] [|j i] //= /andP [hj /ih hi].
apply: (@leq_trans (j.+1 * num_entries s)%N); last by rewrite leq_mul2r hj orbT.
by rewrite mulSn addnC ltn_add2r.
Qed.

Lemma nth_ravel s i : in_shape s i -> nth [::] (indices s) (ravel s i) = i.
Proof.
elim: s i => [|n s ih] [|j i] //= /andP [hj hi].
rewrite (@nth_blocks _ _ _ _ (num_entries s)) ?ravel_lt //; last by move=> m; rewrite size_map size_indices.
by rewrite (nth_map [::]) ?size_indices ?ravel_lt // ih.
Qed.

Lemma ravel_nth s j : (j < num_entries s)%N -> ravel s (nth [::] (indices s) j) = j.
Proof.
move=> hj; set i := nth _ _ _.
have hi : in_shape s i by rewrite -mem_indices mem_nth ?size_indices.
have := nth_ravel hi; rewrite {2}/i => /eqP.
by rewrite nth_uniq ?size_indices ?ravel_lt ?uniq_indices // => /eqP.
Qed.

Lemma ravel_inj s i j : in_shape s i -> in_shape s j -> ravel s i = ravel s j -> i = j.
Proof. by move=> hi hj h; rewrite -(nth_ravel hi) -(nth_ravel hj) h. Qed.

Lemma ravel_cons n s i l : ravel (n :: s) (i :: l) = (i * num_entries s + ravel s l)%N.
Proof. by []. Qed.
Lemma num_entries_cons n s : num_entries (n :: s) = (n * num_entries s)%N.
Proof. by []. Qed.
Lemma num_entries_nil : num_entries [::] = 1%N.
Proof. by []. Qed.
Lemma ravel_nil s : ravel s [::] = 0%N.
Proof. by case: s. Qed.
Definition shapeE := (num_entries_cat, num_entries_cons, num_entries_nil, ravel_cons, ravel_nil, muln1, addn0).

Lemma ravel_cat s1 s2 i1 i2 : size i1 = size s1 ->
  ravel (s1 ++ s2) (i1 ++ i2) = (ravel s1 i1 * num_entries s2 + ravel s2 i2)%N.
Proof.
elim: s1 i1 => [|n s1 ih] [|j i1] //= [h].
by rewrite ih // num_entries_cat mulnDl mulnA addnA.
Qed.

Lemma indices_cat s1 s2 : indices (s1 ++ s2) = [seq i ++ j | i <- indices s1, j <- indices s2].
Proof.
elim: s1 => [|n s1 ih] /=; first by rewrite cats0 map_id.
rewrite ih; elim: (iota 0 n) => [|m l ihl] //=.
rewrite ihl map_cat flatten_cat; congr cat.
rewrite map_flatten -map_comp; rewrite -map_comp; congr flatten.
by apply: eq_map => i /=; rewrite -map_comp.
Qed.

Section T.
Variable F : rcfType.
Notation tensor := (tensor F).

Lemma size_flat (t : tensor) : size (flat t) = num_entries (shp t).
Proof. by rewrite size_map size_indices. Qed.

Lemma nth_flat (t : tensor) i : in_shape (shp t) i -> nth 0 (flat t) (ravel (shp t) i) = at_ t i.
Proof. by move=> h; rewrite (nth_map [::]) ?size_indices ?ravel_lt // nth_ravel. Qed.

Lemma infer_known total s : infer_dims total [seq Some n | n <- s] = Ok s.
Proof.
rewrite /infer_dims.
have -> : count (fun d => d == None) [seq Some n | n <- s] = 0%N by elim: s.
by congr Ok; elim: s => //= n s ->.
Qed.

Lemma pmap_some (s : seq nat) : pmap id [seq Some n | n <- s] = s.
Proof. by elim: s => //= n s ->. Qed.

Lemma infer_head total s : num_entries s != 0%N -> (num_entries s %| total)%N ->
  infer_dims total (None :: [seq Some n | n <- s]) = Ok ((total %/ num_entries s)%N :: s).
Proof.
move=> h0 hd; rewrite /infer_dims /= pmap_some h0 hd /=.
have -> : count (fun d => d == None) [seq Some n | n <- s] = 0%N by elim: s {h0 hd}.
by rewrite /= -map_comp; congr (Ok (_ :: _)); elim: s {h0 hd} => //= n s ->.
Qed.

Lemma reshape_known (t : tensor) s : num_entries s = num_entries (shp t) ->
  tf_reshape t [seq Some n | n <- s] = Ok (Tensor s (fun idx => nth 0 (flat t) (ravel s idx))).
Proof. by move=> h; rewrite /tf_reshape infer_known /= h eqxx. Qed.

Lemma reshape_head (t : tensor) s : num_entries s != 0%N -> (num_entries s %| num_entries (shp t))%N ->
  let s' := (num_entries (shp t) %/ num_entries s)%N :: s in
  tf_reshape t (None :: [seq Some n | n <- s]) = Ok (Tensor s' (fun idx => nth 0 (flat t) (ravel s' idx))).
Proof.
move=> h0 hd s'; rewrite /tf_reshape infer_head //= -/s'.
by rewrite divnK // eqxx.
Qed.
End T.
