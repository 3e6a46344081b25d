(** Scale-and-shift layers: the rows of the gradient matrix are the gradients of the examples. *)
From Coq Require Import String.
From Verif Require Import Base.Py.
From mathcomp Require Import all_ssreflect all_algebra.
From Verif.Ops Require Import Tensor Model Spec TensorProofs ConvProofs SampleProofs.
Set Implicit Arguments.
Unset Strict Implicit.
Unset Printing Implicit Defensive.
Import GRing.Theory Num.Theory.
Local Open Scope ring_scope.

(** [m] marks the axes that are not repeated: there the parameter has the length of the data,
    elsewhere it has length one. *)
Fixpoint fits (m : bitseq) (s d : seq nat) : bool :=
  match m, s, d with
  | b :: m', x :: s', n :: d' => (if b then x == n else x == 1%N) && fits m' s' d'
  | [::], [::], [::] => true
  | _, _, _ => false
  end.

Lemma fits_cat m1 m2 s1 s2 d1 d2 : fits m1 s1 d1 -> fits m2 s2 d2 -> fits (m1 ++ m2) (s1 ++ s2) (d1 ++ d2).
Proof. by elim: m1 s1 d1 => [|b m IH] [|x s] [|n d] //= /andP [-> h] h2; apply: IH. Qed.

Lemma fits_ones (d : seq nat) : fits (nseq (size d) false) (nseq (size d) 1%N) d.
Proof. by elim: d. Qed.

Lemma fits_size m s d : fits m s d -> size m = size d /\ size s = size d.
Proof. by elim: m s d => [|b m IH] [|x s] [|n d] //= /andP [_ /IH [-> ->]]. Qed.

Lemma fits_entries m s d : fits m s d -> num_entries s = num_entries (mask m d).
Proof.
elim: m s d => [|b m IH] [|x s] [|n d] // /andP [hx /IH e].
rewrite num_entries_cons; case: b hx => /eqP ->; rewrite ![mask _ _]/= ?num_entries_cons e //.
by rewrite mul1n.
Qed.

Definition bc1 (s idx : seq nat) : seq nat := [seq if p.1 == 1%N then 0%N else p.2 | p <- seq.zip s idx].

Lemma fits_ravel m s d i : fits m s d -> in_shape d i ->
  ravel s (bc1 s i) = ravel (mask m d) (mask m i) /\ in_shape (mask m d) (mask m i) /\ in_shape s (bc1 s i).
Proof.
elim: m s d i => [|b m IH] [|x s] [|n d] [|j i] // /andP [hx hf] /andP [hj hi].
have [e1 [e2 e3]] := IH _ _ _ hf hi.
rewrite /bc1 [seq.zip _ _]/= map_cons -/(bc1 s i) ravel_cons e1.
case: b hx => /eqP ->; rewrite [(_, _).1]/= [(_, _).2]/= ![mask _ _]/=.
- rewrite ravel_cons (fits_entries hf).
  have -> : in_shape (n :: mask m d) (j :: mask m i) by rewrite /= hj e2.
  case: eqP => [en|_]; last by split=> //; split=> //=; rewrite hj.
  by move: hj; rewrite en ltnS leqn0 => /eqP ->; split.
- by rewrite mul0n add0n; split.
Qed.

(** The loop of the registration. *)
Lemma bdims_loopP strict i (s d : seq nat) l : bdims_loop strict i s d = Ok l -> size s = size d ->
  strict || all2 leq s d ->
  fits [seq j \notin l | j <- iota i (size d)] s d /\ all (fun j => i <= j < i + size d)%N l.
Proof.
elim: s d i l => [|x s IH] [|n d] i l //=; first by case=> <-.
case: ltnP => hxn.
  case: eqP => // hx; case e: (bdims_loop _ _ _ _) => [l'|] //= [<-] [hs] hc.
  have hc' : strict || all2 leq s d by case/orP: hc => [->|/andP [_ ->]]; rewrite ?orbT.
  have [h1 h2] := IH _ _ _ e hs hc'; rewrite mem_head /= leqnn -addSnnS ltnS leq_addr /=; split.
    have -> : [seq j \notin i :: l' | j <- iota i.+1 (size d)] = [seq j \notin l' | j <- iota i.+1 (size d)] => //.
    apply/eq_in_map => j; rewrite mem_iota inE => /andP [hj _].
    by rewrite negb_or (gtn_eqF hj).
  by apply/allP => j /(allP h2) /andP [a ->]; rewrite (ltnW a).
case: ifP => // hst e [hs] hc.
have hc' : strict || all2 leq s d by case/orP: hc => [->|/andP [_ ->]]; rewrite ?orbT.
have [h1 h2] := IH _ _ _ e hs hc'.
have en : x = n.
  apply/eqP; rewrite eqn_leq hxn andbT; case/orP: hc => [hb|/andP [] //].
  by move: hst; rewrite hb /= => /negbT; rewrite -leqNgt.
rewrite en (_ : i \notin l) ?eqxx /=; last by apply/negP => /(allP h2); rewrite ltnn.
by split=> //; apply/allP => j /(allP h2) /andP [a]; rewrite -addSnnS => ->; rewrite (ltnW a).
Qed.

Lemma all2_cat (r : nat -> nat -> bool) a1 a2 b1 b2 : size a1 = size b1 ->
  all2 r (a1 ++ a2) (b1 ++ b2) = all2 r a1 b1 && all2 r a2 b2.
Proof. by elim: a1 b1 => [|x a IH] [|y b] //= [h]; rewrite IH // andbA. Qed.

(** The shape of a parameter seen from the data without its batch axis. *)
Definition seen (s : seq nat) (r : nat) : seq nat :=
  nseq (r - size s - 1) 1%N ++ drop (maxn (r - size s) 1 - (r - size s)) s.

Lemma broadcast_dimsP strict s B (d : seq nat) bd : broadcast_dims strict s (B :: d) = Ok bd ->
  strict || all2 leq (seen s (size d).+1) d ->
  let m := [seq j \notin bd | j <- iota 1 (size d)] in
  [/\ (size s <= (size d).+1)%N, size s = (size d).+1 -> head 0%N s = 1%N,
      fits m (seen s (size d).+1) d & all (fun j => 0 < j)%N bd].
Proof.
rewrite /broadcast_dims; change (size (B :: d)) with (size d).+1; case: ltnP => // hsd.
set start := ((size d).+1 - size s)%N; case: ifP => // hb.
case e: (bdims_loop _ _ _ _) => [l|] //= [<-] hc.
case es: start hb e hc => [|k] hb e hc.
  have hs : size s = (size d).+1 by apply/eqP; rewrite eqn_leq hsd -subn_eq0 -/start es.
  have hd1 : size (drop 1 s) = size d by rewrite size_drop hs subn1.
  have hseen : seen s (size d).+1 = drop 1 s by rewrite /seen -/start es.
  move: e hc; rewrite hseen /= !drop0 => e hc.
  have [h1 h2] := bdims_loopP e hd1 hc; split=> //.
    by move: hb; rewrite eqxx /= => /negbFE /eqP.
  by apply/allP => j /(allP h2) /andP [].
have hks : ((size s) + k = size d)%N.
  by apply/eqP; rewrite -(eqn_add2r 1) !addn1 -addnS -es addnC subnK.
have hseen : seen s (size d).+1 = nseq k 1%N ++ s.
  by rewrite /seen -/start es subSS subn0 (maxn_idPl _) // subnn drop0.
have hkd : (k <= size d)%N by rewrite -hks leq_addl.
move: e hc; rewrite hseen (maxn_idPl _) // subnn drop0 subSS subn0 /= => e hc.
have hdk : size (drop k d) = size s by rewrite size_drop -hks addnK.
have hc' : strict || all2 leq s (drop k d).
  case/orP: hc => [->|] //; rewrite -{1}(cat_take_drop k d) all2_cat ?size_nseq ?size_takel //.
  by case/andP=> _ ->; rewrite orbT.
have [h1 h2] := bdims_loopP e (esym hdk) hc'; split=> //.
- by move=> e'; move: es; rewrite /start e' subnn.
- rewrite -{2}(cat_take_drop k d).
  have -> : [seq j \notin iota 1 k ++ l | j <- iota 1 (size d)] =
    nseq (size (take k d)) false ++ [seq j \notin l | j <- iota k.+1 (size (drop k d))].
    rewrite size_takel // hdk -hks addnC iotaD map_cat add1n; congr (_ ++ _).
      have hn (l0 : seq nat) : nseq (size l0) false = [seq false | _ <- l0] by elim: l0 => //= ? ? ->.
      transitivity [seq false | _ <- iota 1 k]; last by rewrite -hn size_iota.
      by apply/eq_in_map => j hj; rewrite mem_cat hj.
    apply/eq_in_map => j; rewrite mem_iota mem_cat mem_iota => /andP [hj _].
    by rewrite add1n (leq_gtF hj) andbF.
  apply: fits_cat => //; rewrite -{2}(size_takel hkd); exact: fits_ones.
- rewrite all_cat; apply/andP; split; apply/allP => j; first by rewrite mem_iota => /andP [].
  by move=> /(allP h2) /andP [h _]; apply: leq_ltn_trans h.
Qed.

Section Scale.
Variable F : rcfType.
Notation tensor := (tensor F).

Lemma seen_entries s r : (size s <= r.+1)%N -> (size s = r.+1 -> head 0%N s = 1%N) ->
  num_entries (seen s r.+1) = num_entries s.
Proof.
move=> hs h1; rewrite /seen; case es: (r.+1 - size s)%N => [|k].
  have hsr : size s = r.+1 by apply/eqP; rewrite eqn_leq hs -subn_eq0 es.
  case: s hsr h1 {hs es} => [|x s] // hsr /(_ hsr) /= ->.
  by rewrite /maxn drop0 mul1n.
rewrite (maxn_idPl _) // subnn drop0 subSS subn0 num_entries_cat.
have -> : num_entries (nseq k 1%N) = 1%N by elim: (k) => // n IH; rewrite -[nseq _ _]/(_ :: _) num_entries_cons IH.
by rewrite mul1n.
Qed.

(** The place that a parameter is read at. *)
Lemma bc_ravel s r m (d : seq nat) b i : (size s <= r.+1)%N -> (size s = r.+1 -> head 0%N s = 1%N) ->
  size d = r -> fits m (seen s r.+1) d -> in_shape d i ->
  ravel s (bc_index s (b :: i)) = ravel (mask m d) (mask m i) /\
  in_shape s (bc_index s (b :: i)).
Proof.
move=> hs h1 hd hf hi; have [e1 [_ e3]] := fits_ravel hf hi; rewrite -e1.
have hiz : size i = r by rewrite (in_shape_size hi).
move: e3; rewrite /bc_index /seen [size (b :: i)]/= hiz.
case es: (r.+1 - size s)%N => [|k].
  have hsr : size s = r.+1 by apply/eqP; rewrite eqn_leq hs -subn_eq0 es.
  case: s hsr h1 {hs es e1 hf} => [|x s] //= [hsr] /(_ (congr1 _ hsr)) ->.
  by rewrite /maxn /= drop0 mul0n add0n /bc1 => ->.
rewrite (maxn_idPl _) // subnn drop0 subSS subn0 [drop _ (b :: i)]/=.
have hk : (k <= size i)%N.
  by rewrite hiz -ltnS -es leq_subr.
have hz : bc1 (nseq k 1%N ++ s) i = nseq k 0%N ++ bc1 s (drop k i).
  elim: k i hk {es hi hiz e1} => [|k IH] [|j i] //= hk.
  by rewrite -IH.
rewrite hz in_shape_cat ?size_nseq // ravel_cat ?size_nseq //.
have -> : ravel (nseq k 1%N) (nseq k 0%N) = 0%N by elim: (k) => // n IH; rewrite -![nseq n.+1 _]/(_ :: _) ravel_cons IH.
by rewrite mul0n add0n => /andP [_ ->].
Qed.

Lemma reshape_rows (t : tensor) B d : shp t = B :: d -> B != 0%N ->
  exists R, tf_reshape t [:: Some B; None] = Ok R /\ shp R = [:: B; num_entries d] /\
    forall b k, (b < B)%N -> (k < num_entries d)%N -> at_ R [:: b; k] = at_ t (b :: nth [::] (indices d) k).
Proof.
move=> ht hB; have hB0 : (0 < B)%N by rewrite lt0n.
rewrite /tf_reshape /infer_dims /= muln1 ht num_entries_cons hB dvdn_mulr //= mulKn //.
rewrite muln1 eqxx; eexists; split; first reflexivity; split=> // b k hb hk.
rewrite [LHS]/= muln1 addn0.
have hin : in_shape d (nth [::] (indices d) k) by rewrite -mem_indices mem_nth ?size_indices.
have e : (b * num_entries d + k)%N = ravel (shp t) (b :: nth [::] (indices d) k).
  by rewrite ht ravel_cons ravel_nth.
by rewrite e nth_flat // ht /= hb.
Qed.

Lemma keep_head bd m (d : seq nat) b i : all (fun j => 0 < j)%N bd ->
  m = [seq j \notin bd | j <- iota 1 (size d)] -> size i = size d -> keep bd (b :: i) = b :: mask m i.
Proof.
move=> hbd -> hi; rewrite /keep /= hi.
by have -> : 0%N \notin bd by apply/negP => /(allP hbd).
Qed.

(** The gradient with respect to a repeated parameter. *)
Lemma param_gradient (P : tensor) s B (d : seq nat) bd strict : shp P = B :: d -> B != 0%N ->
  broadcast_dims strict s (B :: d) = Ok bd -> strict || all2 leq (seen s (size d).+1) d ->
  exists R, tf_reshape (tf_reduce_sum P bd) [:: Some B; None] = Ok R /\ shp R = [:: B; num_entries s] /\
    num_entries [seq nth 0%N (B :: d) i | i <- iota 1 (size d) & i \notin bd] = num_entries s /\
    forall b (t : tensor), (b < B)%N -> shp t = s ->
      \sum_(i <- indices d) at_ P (b :: i) * bc_entry t (b :: i) =
      \sum_(k < num_entries s) at_ R [:: b; nat_of_ord k] * nth 0 (flat t) k.
Proof.
move=> hP hB hbd hc; set m := [seq j \notin bd | j <- iota 1 (size d)].
have [h1 h2 hf hpos] := broadcast_dimsP hbd hc; rewrite -/m in hf.
have hsum : shp (tf_reduce_sum P bd) = B :: mask m d by rewrite /= hP (keep_head _ hpos (erefl m)).
have [R [e1 [e2 e3]]] := reshape_rows hsum hB.
have hn : num_entries s = num_entries (mask m d) by rewrite -(fits_entries hf) seen_entries.
exists R; split=> //; split; first by rewrite hn.
split.
  rewrite hn; congr num_entries; rewrite filter_mask map_mask; congr (mask _ _).
  by rewrite map_nth_iota /= ?subn1 /= ?drop0 ?take_size.
move=> b t hb ht; rewrite hn.
pose q i := ravel (mask m d) (mask m i).
have hq i : in_shape d i -> (q i < num_entries (mask m d))%N /\ in_shape (mask m d) (mask m i) /\
    bc_entry t (b :: i) = nth 0 (flat t) (q i).
  move=> hi; have [_ [a2 _]] := fits_ravel hf hi; split; first exact: ravel_lt.
  split=> //; have [a3 a4] := bc_ravel b h1 h2 (erefl _) hf hi.
  by rewrite /q -a3 -ht nth_flat /bc_entry ?ht.
rewrite (eq_big_seq (fun i => \sum_(k < num_entries (mask m d) | q i == k) at_ P (b :: i) * nth 0 (flat t) k)); last first.
  move=> i; rewrite mem_indices => /hq [a1 [_ ->]].
  rewrite (big_pred1 (Ordinal a1)) // => k /=; by rewrite eq_sym.
rewrite (eq_bigr (fun i => \sum_(k < num_entries (mask m d)) (if q i == k then at_ P (b :: i) else 0) * nth 0 (flat t) k)); last first.
  move=> i _; rewrite big_mkcond /=; apply: eq_bigr => k _; by case: eqP; rewrite ?mul0r.
rewrite exchange_big /=; apply: eq_bigr => k _; rewrite -big_distrl /=; congr (_ * _).
have hk : in_shape (mask m d) (nth [::] (indices (mask m d)) k) by rewrite -mem_indices mem_nth ?size_indices.
rewrite e3 // /tf_reduce_sum [at_ _ _]/= hP [RHS]big_mkcond -[B :: d]/([:: B] ++ d) [RHS]sum_indices_cat sum_indices1.
rewrite (bigD1 (Ordinal hb)) //= [X in _ = _ + X]big1 ?addr0.
  apply: eq_big_seq => i; rewrite mem_indices => hi; have [_ [a2 _]] := hq i hi.
  rewrite (keep_head _ hpos (erefl m)) ?(in_shape_size hi) // eqseq_cons eqxx /=.
  congr (if _ then _ else _); rewrite /q; apply/eqP/eqP => [e|->]; last by rewrite ravel_nth.
  by apply: (ravel_inj a2 hk); rewrite ravel_nth.
move=> c hc0; rewrite big1_seq // => i /andP [_]; rewrite mem_indices => hi.
rewrite (keep_head _ hpos (erefl m)) ?(in_shape_size hi) // eqseq_cons.
by case: eqP => //= hcb; case/eqP: hc0; apply: val_inj.
Qed.

Lemma bc_le a (b : seq nat) : bc_dims a b = Some b -> all (fun n => 0 < n)%N b -> all2 leq a b.
Proof.
elim: a b => [|m a IH] [|n b] //=; case e: (bc_dims a b) => [l|] // h /andP [hn hb].
have [hl hm] : l = b /\ (m <= n)%N.
  move: h; case: eqP => [-> [->]|_] //; case: eqP => [-> [->]|_] //.
  by case: eqP => // -> [-> ->].
by rewrite hl in e; rewrite hm IH.
Qed.

Lemma bc_self d : bc_dims d d = Some d.
Proof. by elim: d => //= n d ->; rewrite eqxx. Qed.
Lemma bc_shape_self d : bc_shape d d = Some d.
Proof. by rewrite /bc_shape maxnn subnn /= bc_self. Qed.
Lemma bc_index_self d i : in_shape d i -> bc_index d i = i.
Proof.
move=> hi; rewrite /bc_index (in_shape_size hi) subnn drop0.
elim: d i hi => [|n d IH] [|j i] //= /andP [hj /IH ->].
by case: eqP hj => // ->; rewrite ltnS leqn0 => /eqP ->.
Qed.

Lemma seen_le s B (d : seq nat) : bc_shape s (B :: d) = Some (B :: d) -> (size s <= (size d).+1)%N ->
  all (fun n => 0 < n)%N (B :: d) -> all2 leq (seen s (size d).+1) d.
Proof.
move=> hbc hs hpos; move: hbc; rewrite /bc_shape [size (B :: d)]/= (maxn_idPr hs) subnn cat0s.
move/bc_le/(_ hpos); rewrite /seen; case es: ((size d).+1 - size s)%N => [|k].
  by rewrite cat0s /maxn /=; case: s {hs es} => [|x s] //= /andP [_]; rewrite drop0.
by rewrite (maxn_idPl _) // subnn drop0 subSS subn0 => /= /andP [].
Qed.

(** The rows are the gradients. *)
Theorem scale_shift_rows (x G : tensor) scale shift B (d : seq nat) bscale bshift :
  register_scale_and_shift_dims scale shift (shp x) (shp G) = Ok (bscale, bshift) ->
  shp x = B :: d -> shp G = B :: d -> all (fun n => 0 < n)%N (B :: d) ->
  bc_shape scale (B :: d) = Some (B :: d) ->
  let ns := num_entries scale in
  let n := (ns + if shift is Some s then num_entries s else 0)%N in
  exists R, scale_shift_grads x G bscale bshift = Ok R /\ shp R = [:: B; n] /\
    scale_shift_cov_size (shp x) (shp G) bscale bshift = n /\
    forall b (t : tensor) (u : option tensor), (b < B)%N -> shp t = scale -> omap (@shp F) u = shift ->
      weighted_scale_shift t u x G b =
      \sum_(k < n) at_ R [:: b; nat_of_ord k] *
                   nth 0 (flat t ++ if u is Some u' then flat u' else [::]) k.
Proof.
move=> hreg hx hG hpos hbc ns n.
have hB : B != 0%N by case/andP: hpos; rewrite lt0n.
move: hreg; rewrite /register_scale_and_shift_dims hx hG.
case ew: (match shift with Some s => _ | None => _ end) => [bs|] //=.
case ec: (broadcast_dims false scale (B :: d)) => [bc|] //= [e1 e2]; subst bc bs.
have hsz : (size scale <= (size d).+1)%N by move: ec; rewrite /broadcast_dims; case: ltnP.
have hle := seen_le hbc hsz hpos.
pose P := Tensor (B :: d) (fun idx => bc_entry x idx * bc_entry G idx).
have hP : tf_multiply x G = Ok P by rewrite /tf_multiply /tf_binary hx hG bc_shape_self.
have [R1 [a1 [a2 [a3 a4]]]] := param_gradient (P := P) (erefl _) hB ec (strict := false) hle.
have hin b i : (b < B)%N -> i \in indices d -> in_shape (B :: d) (b :: i) by move=> h; rewrite mem_indices /= h.
have hall : all (fun i => nth 0 (B :: d) i <= nth 0 (B :: d) i)%N (iota 1 (size (B :: d) - 1)) by apply/allP.
rewrite /scale_shift_grads hx hG eqxx hall hP /= a1 /=.
have hweight b t : (b < B)%N -> shp t = scale ->
    \sum_(i <- indices d) at_ G (b :: i) * (bc_entry t (b :: i) * bc_entry x (b :: i)) =
    \sum_(k < ns) at_ R1 [:: b; nat_of_ord k] * nth 0 (flat t) k.
  move=> hb ht; rewrite -(a4 b t hb ht); apply: eq_big_seq => i /(hin b i hb) hi.
  rewrite /= [bc_entry x _]/bc_entry [bc_entry G _]/bc_entry hx hG bc_index_self //.
  by rewrite mulrCA mulrC [at_ G _ * _]mulrC.
case: shift ew @n => [s|]; last first.
  move=> [<-] n; exists R1; rewrite /n addn0; split=> //; split=> //; split.
    by rewrite /scale_shift_cov_size /= subn1 /= a3 addn0.
  move=> b t [] // hb ht _; rewrite cats0 -hweight // /weighted_scale_shift hG /=.
  by apply: eq_bigr => i _; rewrite addr0.
case ed: (broadcast_dims true s (B :: d)) => [bd|] //= [<-].
have [R2 [c1 [c2 [c3 c4]]]] := param_gradient hG hB ed (erefl true).
rewrite c1 /= /tf_concat1 a2 c2 eqxx /=; eexists; split; first reflexivity; split=> //; split.
  by rewrite /scale_shift_cov_size /= !subn1 /= a3 c3.
move=> b t [u|] // hb ht [hu]; rewrite /weighted_scale_shift hG /=.
rewrite (eq_bigr (fun i => at_ G (b :: i) * (bc_entry t (b :: i) * bc_entry x (b :: i)) + at_ G (b :: i) * bc_entry u (b :: i))); last first.
  by move=> i _; rewrite mulrDr.
rewrite big_split /= hweight // c4 // big_split_ord /=; congr (_ + _); apply: eq_bigr => k _.
  by rewrite ltn_ord nth_cat size_flat ht ltn_ord.
by rewrite ltnNge leq_addr /= nth_cat size_flat ht ltnNge leq_addr /= addKn.
Qed.

(** The statistic. *)
Lemma mean_squareE (t : tensor) m n i : shp t = [:: m; n] ->
  at_ (mean_square t) [:: i] = (\sum_(r < m) at_ t [:: nat_of_ord r; i] ^+ 2) / m%:R.
Proof. by move=> hs; rewrite /mean_square hs. Qed.
End Scale.
