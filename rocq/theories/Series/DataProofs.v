(** The data of a layer with several uses. *)
From Verif.Base Require Import Py.
From mathcomp Require Import all_ssreflect all_algebra.
From Coq Require List.
From Coq Require Import Permutation.
From Verif.Series Require Import Model Spec.
Set Implicit Arguments.
Unset Strict Implicit.
Unset Printing Implicit Defensive.

Section Lists.
Variable X : Type.

Lemma perm_flatten_cat I (ts : seq I) (g h : I -> seq X) :
  Permutation (flatten [seq g t ++ h t | t <- ts]) (flatten (map g ts) ++ flatten (map h ts)).
Proof.
elim: ts => [|t ts IH] /=; first by constructor.
rewrite -!catA; apply: Permutation_app_head.
apply: Permutation_trans (Permutation_app_head _ IH) _.
exact: Permutation_app_swap_app.
Qed.
Lemma perm_flatten_swap I J (us : seq I) (ts : seq J) (f : I -> J -> seq X) :
  Permutation (flatten [seq flatten [seq f u t | t <- ts] | u <- us])
              (flatten [seq flatten [seq f u t | u <- us] | t <- ts]).
Proof.
elim: us => [|u us IH] /=.
  by elim: ts => [|t ts IH] //=; constructor.
apply: Permutation_sym; apply: Permutation_trans (perm_flatten_cat _ _ _) _.
by apply: Permutation_app_head; apply: Permutation_sym.
Qed.

Lemma nth_iota_map Z (d : Z) (l : seq Z) : [seq nth d l u | u <- iota 0 (size l)] = l.
Proof. by rewrite map_nth_iota0 // take_size. Qed.

Lemma formed_chain (blocks : seq (seq X)) b0 b : size b0 = b -> (forall u, List.In u blocks -> size u = b) ->
  zip (flatten blocks) (take (size (flatten blocks)) (flatten (b0 :: blocks))) = successive (b0 :: blocks).
Proof.
elim: blocks b0 => [|b1 l IH] b0 h0 h; first by case: (take _ _).
have h1 : size b1 = b by apply: h; left.
rewrite [flatten (b1 :: l)]/= size_cat.
have -> : flatten [:: b0, b1 & l] = b0 ++ flatten (b1 :: l) by [].
rewrite take_cat h0 h1 ltnNge leq_addr /= addKn. rewrite zip_cat ?h0 //.
rewrite -/(flatten (b1 :: l)) IH //; last by move=> u hu; apply: h; right.
rewrite /successive /= -[X in _ = X]/(_ ++ _); congr (_ ++ flatten _).
by rewrite (iotaDl 1 0) -map_comp.
Qed.

Lemma size_flatten_const (blocks : seq (seq X)) b : (forall u, List.In u blocks -> size u = b) ->
  size (flatten blocks) = (size blocks * b)%N.
Proof.
elim: blocks => [//|u l IH] h /=; rewrite size_cat mulSn h; last by left.
by rewrite IH // => v hv; apply: h; right.
Qed.

Lemma formed_blocks T (blocks : seq (seq X)) b : size blocks = T -> (0 < T)%N -> (0 < b)%N ->
  (forall u, List.In u blocks -> size u = b) -> formed T (flatten blocks) = successive blocks.
Proof.
move=> hT T0 b0 h; rewrite /formed /future_rows /present_rows.
rewrite (size_flatten_const h) hT mulKn // gtn_eqF //.
case: blocks hT h => [hT|c l hT h]; first by rewrite -hT in T0.
have hc : size c = b by apply: h; left.
have hl : forall u, List.In u l -> size u = b by move=> u hu; apply: h; right.
rewrite -(formed_chain hc hl) {1}/flatten /= drop_size_cat // -/(flatten l).
by rewrite (size_flatten_const hl) -hT /= mulSn addKn.
Qed.
End Lists.

Section Zip.
Variable X : Type.
Implicit Type towers : seq (seq (seq X)).

Lemma zip_listsE Z (l : seq (seq Z)) T d : (forall t, List.In t l -> size t = T) ->
  zip_lists T l = [seq [seq nth d t u | t <- l] | u <- iota 0 T].
Proof.
elim: T l => [//|T IH] l h /=.
have -> : all (fun x : seq Z => (0 < size x)%N) l.
  by elim: l h => [//|t l IHl] h /=; rewrite h; [apply: IHl => s hs; apply: h; right|left].
congr (_ :: _).
  elim: l h => [//|t l IHl] h /=; have := h t (or_introl erefl); case: t h => [//|z t] h _ /=.
  by congr (_ :: _); apply: IHl => s hs; apply: h; right.
rewrite IH.
  rewrite (iotaDl 1 0) -map_comp; apply: eq_map => u /=; rewrite -map_comp; apply: eq_map => t /=.
  by rewrite nth_behead.
move=> t; rewrite List.in_map_iff => -[s [<- hs]]; by rewrite size_behead h.
Qed.
Lemma zip_starE towers T : (0 < size towers)%N -> (forall t, List.In t towers -> size t = T) ->
  zip_star towers = [seq [seq nth [::] t u | t <- towers] | u <- iota 0 T].
Proof.
case: towers => [//|t l] _ h; rewrite /zip_star h; last by left.
exact: zip_listsE.
Qed.

Definition blocks towers T : seq (seq X) := [seq flatten [seq nth [::] t u | t <- towers] | u <- iota 0 T].
Lemma flatten_flatten Z (l : seq (seq (seq Z))) : flatten (flatten l) = flatten (map flatten l).
Proof. by elim: l => [//|x l IH] /=; rewrite flatten_cat IH. Qed.
Lemma merge_concat towers T : (0 < T)%N -> (0 < size towers)%N ->
  (forall t, List.In t towers -> size t = T) ->
  merge_towers Concat towers = Ok [:: Rank2 (flatten (blocks towers T))].
Proof.
move=> T0 n0 h; rewrite /merge_towers (zip_starE n0 h) /partitioned.
set l := flatten _; have : flatten l = flatten (blocks towers T).
  by rewrite /l flatten_flatten -map_comp.
have : l <> [::].
  rewrite /l; case: T T0 {h l} => [//|T _]; by case: towers n0.
by case: l => [//|x l] _ <-.
Qed.
Lemma merge_separate towers T : (0 < T)%N -> (forall t, List.In t towers -> size t = T) ->
  merge_towers Separate towers = Ok [seq Rank2 (flatten t) | t <- towers].
Proof.
move=> T0; rewrite /merge_towers; elim: towers => [//|t l IH] h /=.
rewrite IH; last by move=> s hs; apply: h; right.
have : size t = T by apply: h; left.
by case: t {h} => [h|//]; rewrite -h in T0.
Qed.

Lemma blocks_perm towers T : (forall t, List.In t towers -> size t = T) ->
  Permutation (flatten (blocks towers T)) (flatten (map flatten towers)).
Proof.
move=> h; apply: Permutation_trans (perm_flatten_swap _ _ (fun u t => nth [::] t u)) _.
elim: towers h => [|t l IH] h /=; first by constructor.
rewrite -{1}(h t (or_introl erefl)) nth_iota_map; apply: Permutation_app_head.
by apply: IH => s hs; apply: h; right.
Qed.

Lemma zip_flatten_map I (ts : seq I) (f g : I -> seq X) : (forall t, List.In t ts -> size (f t) = size (g t)) ->
  zip (flatten (map f ts)) (flatten (map g ts)) = flatten [seq zip (f t) (g t) | t <- ts].
Proof.
elim: ts => [//|t l IH] h /=; rewrite zip_cat; last by apply: h; left.
by rewrite IH // => s hs; apply: h; right.
Qed.
Lemma In_nth Z (d : Z) l u : (u < size l)%N -> List.In (nth d l u) l.
Proof. by elim: l u => [//|z l IH] [|u] h /=; [left|right; apply: IH]. Qed.
Lemma In_iota u m n : List.In u (iota m n) -> (m <= u < m + n)%N.
Proof.
elim: n m => [//|n IH] m /= [<-|/IH]; first by rewrite leqnn addnS ltnS leq_addr.
by rewrite addnS => /andP [h1 h2]; rewrite (ltnW h1).
Qed.
Lemma eq_map_In I Z (f g : I -> Z) l : (forall i, List.In i l -> f i = g i) -> map f l = map g l.
Proof. by elim: l => [//|i l IH] h /=; rewrite h; [rewrite IH // => j hj; apply: h; right|left]. Qed.

Lemma regular_total T towers : regular T towers -> (0 < T)%N ->
  exists b, (0 < b)%N /\ forall u, List.In u (blocks towers T) -> size u = b.
Proof.
move=> [n0 h] T0; exists (sumn [seq size (nth [::] t 0) | t <- towers]).
have hb t u : List.In t towers -> (u < T)%N -> size (nth [::] t u) = size (nth [::] t 0) /\ (0 < size (nth [::] t 0))%N.
  move=> ht hu; have [hs [b [b0 hb]]] := h _ ht.
  by rewrite !hb ?hs //; apply: In_nth; rewrite hs.
split.
  case: towers n0 {h} hb => [//|t l] _ hb /=; rewrite addn_gt0.
  by have [_ ->] := hb t 0 (or_introl erefl) T0.
move=> B; rewrite List.in_map_iff => -[u [<- /In_iota /andP [_ hu]]].
rewrite size_flatten /shape -map_comp; congr sumn; apply: eq_map_In => t ht /=.
by have [-> _] := hb t u ht hu.
Qed.
Lemma successive_blocks T towers : regular T towers -> (0 < T)%N ->
  Permutation (successive (blocks towers T)) (flatten (map (@successive X) towers)).
Proof.
move=> [n0 h] T0; rewrite /successive /blocks size_map size_iota.
have -> : [seq zip (nth [::] [seq flatten [seq nth [::] t u | t <- towers] | u <- iota 0 T] u.+1)
               (nth [::] [seq flatten [seq nth [::] t u | t <- towers] | u <- iota 0 T] u) | u <- iota 0 T.-1] =
  [seq flatten [seq zip (nth [::] t u.+1) (nth [::] t u) | t <- towers] | u <- iota 0 T.-1].
  apply: eq_map_In => u /In_iota /andP [_ hu]; rewrite add0n in hu.
  have hu1 : (u.+1 < T)%N by rewrite -(prednK T0) ltnS.
  rewrite !(nth_map 0%N) ?size_iota // 1?ltnW // !nth_iota // 1?ltnW // !add0n.
  apply: zip_flatten_map => t ht; have [hs [b [b0 hb]]] := h _ ht.
  by rewrite !hb //; apply: In_nth; rewrite hs // ltnW.
apply: Permutation_trans (perm_flatten_swap _ _ (fun u t => zip (nth [::] t u.+1) (nth [::] t u))) _.
rewrite (@eq_map_In _ _ _ (@successive X)); first exact: Permutation_refl.
by move=> t ht; rewrite /successive (h _ ht).1.
Qed.
Lemma formed_concat T towers : regular T towers -> (0 < T)%N ->
  Permutation (formed T (flatten (blocks towers T))) (flatten (map (@successive X) towers)).
Proof.
move=> h T0; have [b [b0 hb]] := regular_total h T0.
rewrite (formed_blocks _ T0 b0 hb); first exact: successive_blocks.
by rewrite size_map size_iota.
Qed.
Lemma formed_separate T towers t : regular T towers -> (0 < T)%N -> List.In t towers ->
  formed T (flatten t) = successive t.
Proof.
by move=> [n0 h] T0 /h [hs [b [b0 hb]]]; apply: formed_blocks hb.
Qed.
Lemma batch_separate T towers t : regular T towers -> (0 < T)%N -> List.In t towers ->
  multi_partial_batch_size T (Rank2 (flatten t)) = size (nth [::] t 0).
Proof.
move=> [n0 h] T0 /h [hs [b [b0 hb]]]; rewrite /= (size_flatten_const hb) hs mulKn // hb //.
by apply: In_nth; rewrite hs.
Qed.
Lemma batch_concat T towers : regular T towers -> (0 < T)%N ->
  multi_partial_batch_size T (Rank2 (flatten (blocks towers T))) =
  sumn [seq size (nth [::] t 0) | t <- towers].
Proof.
move=> h T0; have [b [b0 hb]] := regular_total h T0.
rewrite /= (size_flatten_const hb) size_map size_iota mulKn //.
have <- : size (nth [::] (blocks towers T) 0) = b.
  by apply: hb; apply: In_nth; rewrite size_map size_iota.
by rewrite /blocks (nth_map 0%N) ?size_iota // nth_iota // size_flatten /shape -map_comp.
Qed.
End Zip.

Section Process.
Variables (X Y : Type).
Lemma regular_sizes Z T (towers : seq (seq (seq Z))) : regular T towers ->
  forall t, List.In t towers -> size t = T.
Proof. by move=> [_ h] t /h []. Qed.
Lemma all_sizes Z T (l : seq (seq Z)) : (forall t, List.In t l -> size t = T) -> all (fun t => size t == T) l.
Proof. by elim: l => [//|t l IH] h /=; rewrite h ?eqxx; [apply: IH => s hs; apply: h; right|left]. Qed.
Lemma all_sizesP Z T (l : seq (seq Z)) : all (fun t => size t == T) l -> forall t, List.In t l -> size t = T.
Proof. by elim: l => [//|t l IH] /= /andP [/eqP h1 h2] s [<- //|]; apply: IH. Qed.

Lemma process_regular strategy T nu (towers : seq (seq (seq X))) (sources : seq (seq (seq (seq Y))))
    ts gs :
  regular T towers -> (0 < size sources)%N -> (forall s, List.In s sources -> regular T s) ->
  nu = None \/ nu = Some T ->
  merge_towers strategy towers = Ok ts -> map_res (merge_towers strategy) sources = Ok gs ->
  process_data strategy nu (ByUse towers) (GByUse sources) = Ok (ts, gs, T).
Proof.
move=> hr s0 hs hnu ht hg; rewrite /process_data /process_inputs.
case: towers hr ht => [[//]|f l] hr ht; have hf : size f = T by apply: (regular_sizes hr); left.
rewrite hf; have -> : (match nu with Some k => k != T | None => false end) = false.
  by case: hnu => -> //; rewrite eqxx.
rewrite (all_sizes (regular_sizes hr)) /= ht /=.
rewrite /process_grads; case: sources s0 hs hg => [//|s ss] _ hs hg.
have hrs := hs s (or_introl erefl); case: s hs hg hrs => [|g gl] hs hg hrs; first by case: hrs.
have hgT : size g = T by apply: (regular_sizes hrs); left.
rewrite hgT eqxx /=.
have -> : all (fun t => size t == T) gl.
  by apply: all_sizes => t h; apply: (regular_sizes hrs); right.
have -> : all (fun s => all (fun t => size t == T) s) ss.
  elim: ss hs {hg} => [//|s ss IH] hs /=.
  rewrite (all_sizes (regular_sizes (hs s (or_intror (or_introl erefl))))) /=.
  by apply: IH => u [hu|hu]; apply: hs; [left|right; right].
by rewrite /= in hg *; rewrite hgT eqxx /= hg.
Qed.

Lemma map_res_cons A B (f : A -> res B) a l : map_res f (a :: l) =
  match f a with Ok b => match map_res f l with Ok bs => Ok (b :: bs) | Raise e => Raise e end | Raise e => Raise e end.
Proof. by rewrite /=; case: (f a) => //= b; case: (map_res f l). Qed.
Lemma merge_all_concat Z T (sources : seq (seq (seq (seq Z)))) : (0 < T)%N ->
  (forall s, List.In s sources -> regular T s) ->
  map_res (merge_towers Concat) sources = Ok [seq [:: Rank2 (flatten (blocks s T))] | s <- sources].
Proof.
move=> T0; elim: sources => [//|s l IH] hs.
have hr := hs s (or_introl erefl).
rewrite map_res_cons (merge_concat T0 (proj1 hr) (regular_sizes hr)).
by rewrite IH // => t ht; apply: hs; right.
Qed.
Lemma merge_all_separate Z T (sources : seq (seq (seq (seq Z)))) : (0 < T)%N ->
  (forall s, List.In s sources -> regular T s) ->
  map_res (merge_towers Separate) sources = Ok [seq [seq Rank2 (flatten t) | t <- s] | s <- sources].
Proof.
move=> T0; elim: sources => [//|s l IH] hs.
have hr := hs s (or_introl erefl).
rewrite map_res_cons (merge_separate T0 (regular_sizes hr)).
by rewrite IH // => t ht; apply: hs; right.
Qed.

(** Whatever is accepted has one number of uses. *)
Lemma process_counts strategy nu (inputs : side X) (g : grads Y) ts gs k :
  process_data strategy nu inputs g = Ok (ts, gs, k) ->
  [/\ nu = None \/ nu = Some k,
      forall towers, inputs = ByUse towers ->
        strategy <> OtherStrategy /\ forall t, List.In t towers -> size t = k,
      forall sources, g = GByUse sources ->
        strategy <> OtherStrategy /\ forall s t, List.In s sources -> List.In t s -> size t = k
    & forall ts' gs', inputs = ByTower ts' -> g = GByTower gs' -> ts = ts' /\ gs = gs' /\ nu = Some k].
Proof.
have st Z (towers : seq (seq (seq Z))) r : merge_towers strategy towers = Ok r -> strategy <> OtherStrategy.
  by case: strategy.
rewrite /process_data.
case hi : (process_inputs strategy nu inputs) => [[ts0 k1]|//] /=.
case hg : (process_grads strategy k1 g) => [[gs0 k2]|//] /=.
case: k2 hg => [k2|//] hg [? ? ?]; subst ts0 gs0 k2.
have hI : (nu = None \/ nu = k1) /\ (k1 <> None -> (forall towers, inputs = ByUse towers ->
    strategy <> OtherStrategy /\ forall t, List.In t towers -> Some (size t) = k1)) /\
    (forall towers, inputs = ByUse towers -> k1 <> None) /\
    (forall ts', inputs = ByTower ts' -> ts = ts' /\ k1 = nu).
  move: hi; rewrite /process_inputs; case: inputs => [[|f l]|[|t l]] //=; last first.
    by move=> [<- <-]; split; [right|split; [|split; [|move=> ts' [<-]]]].
  rewrite eqxx /=; case: ifP => // hnu; case: ifP => // /negbFE hall.
  case hm : (merge_towers strategy (f :: l)) => [r|//] [? <-]; subst r.
  split; [|split; [|split]] => //.
  - by case: nu hnu {hg} => [q|]; [move/negbFE/eqP => ->; right|left].
  - move=> _ towers [<-]; split; first exact: st hm.
    by move=> t [<- //|/(all_sizesP hall) ->].
have hG : (k1 = None \/ k1 = Some k) /\ (forall sources, g = GByUse sources ->
    strategy <> OtherStrategy /\ forall s t, List.In s sources -> List.In t s -> size t = k) /\
    (forall gs', g = GByTower gs' -> gs = gs' /\ k1 = Some k).
  move: hg; rewrite /process_grads; case: g => [[|[|f l] ss]|[|[|t l] ss]] //; last first.
    by move=> [<- <-]; split; [right|split; [|move=> gs' [<-]]].
  case: ifP => // hnu; case: ifP => // /negbFE hall.
  case hm : (map_res _ _) => [r|//] [? <-]; subst r.
  split; [|split] => //.
  - by case: (k1) hnu => [q|]; [move/negbFE/eqP => ->; right|left].
  - move=> sources [<-]; split.
      by move: hm => /=; case hm1 : (merge_towers strategy (f :: l)) => [r|//] _; exact: st hm1.
    move: hall; elim: ((f :: l) :: ss) => [//|s l' IH] /= /andP [h1 h2] s' t [<- ht|]; last exact: IH.
    exact: all_sizesP h1 t ht.
case: hI => [i1 [i2 [i3 i4]]]; case: hG => [g1 [g2 g3]].
split.
- case: i1 => [->|->]; first by left.
  by case: g1 => ->; [left|right].
- move=> towers ht; have n := i3 _ ht; have [s1 s2] := i2 n _ ht; split=> // t h.
  by case: g1 => e; [case: (n e)|have := s2 _ h; rewrite e => -[]].
- by [].
- move=> ts' gs' h1 h2; have [-> e1] := i4 _ h1; have [-> e2] := g3 _ h2.
  by rewrite -e1 e2.
Qed.
End Process.
