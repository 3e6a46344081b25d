(** Patches: what they contain, and how a convolution is computed from them. *)
From Coq Require Import String.
From Verif Require Import Base.Py.
From mathcomp Require Import all_ssreflect all_algebra.
From Verif.Ops Require Import Tensor Model Spec TensorProofs.
Set Implicit Arguments.
Unset Strict Implicit.
Unset Printing Implicit Defensive.
Import GRing.Theory Num.Theory.
Local Open Scope ring_scope.

Lemma indices1 n : indices [:: n] = [seq [:: i] | i <- iota 0 n].
Proof. by rewrite /=; elim: n 0%N => [|n ih] m //=; rewrite ih. Qed.

Lemma sum_indices1 (F : rcfType) n (h : seq nat -> F) :
  \sum_(i <- indices [:: n]) h i = \sum_(i < n) h [:: nat_of_ord i].
Proof. by rewrite indices1 big_map -(big_mkord xpredT (fun i => h [:: i])) /index_iota subn0. Qed.

Lemma sum_indices_cat (F : rcfType) s1 s2 (h : seq nat -> F) :
  \sum_(i <- indices (s1 ++ s2)) h i = \sum_(i <- indices s1) \sum_(j <- indices s2) h (i ++ j).
Proof. by rewrite indices_cat big_flatten /= big_map; apply: eq_bigr => i _; rewrite big_map. Qed.

Lemma sum_rcons (F : rcfType) s n (h : seq nat -> F) :
  \sum_(i <- indices s) \sum_(c < n) h (i ++ [:: nat_of_ord c]) = \sum_(i <- indices (s ++ [:: n])) h i.
Proof. by rewrite sum_indices_cat; apply: eq_bigr => i _; rewrite sum_indices1. Qed.

Lemma sum_pick (F : rcfType) s i0 (h : seq nat -> F) : in_shape s i0 ->
  \sum_(i <- indices s) h i * (ravel s i == ravel s i0)%:R = h i0.
Proof.
move=> h0; rewrite (bigD1_seq i0) ?mem_indices ?uniq_indices //= eqxx mulr1 big1_seq ?addr0 //.
move=> i /andP [hn]; rewrite mem_indices => hi.
case: eqP => [e|_]; last by rewrite mulr0.
by rewrite (ravel_inj hi h0 e) eqxx in hn.
Qed.

(** The sum over a shape, by place. *)
Lemma sum_ravel (F : rcfType) s (h : nat -> F) :
  \sum_(i <- indices s) h (ravel s i) = \sum_(j < num_entries s) h j.
Proof.
rewrite (big_nth [::]) size_indices big_mkord; apply: eq_bigr => j _.
by rewrite ravel_nth.
Qed.

(* ------------------------------------------------------------------------ *)
Lemma positionP p d o k l : position p d o k = Some l <->
  (l + d_before p d = o * d_stride d + k * d_rate d)%N /\ (l < d_size d)%N.
Proof.
rewrite /position; case: ifP => [/andP [h1 h2]|h]; split.
- by case=> <-; rewrite subnK.
- by case=> e hl; congr Some; rewrite -e addnK.
- by [].
- by case=> e hl; rewrite -e leq_addl addnK hl in h.
Qed.

Lemma positionsP p g o k l : size o = size g -> size k = size g ->
  positions p g o k = Some l <-> falls_on p g o k l.
Proof.
elim: g o k l => [|d g ih] [|o1 o] [|k1 k] l //=.
  move=> _ _; split=> [[<-]|[/size0nil -> _]] //; by split.
move=> [ho] [hk]; split.
- case hp: (position _ _ _ _) => [x|] //; case hq: (positions _ _ _ _) => [m|] // [<-].
  move/(ih o k m ho hk): hq => [hs hm]; move/positionP: hp => hx.
  by split=> [/=|[|i]] //=; rewrite ?hs // ltnS; apply: hm.
- case: l => [|x m] [] //= [hs] hm.
  have /positionP -> : (x + d_before p d = o1 * d_stride d + k1 * d_rate d)%N /\ (x < d_size d)%N by apply: (hm 0%N).
  have /(ih o k m ho hk) -> // : falls_on p g o k m.
  by split=> // i hi; apply: (hm i.+1).
Qed.

Lemma window_read (F : rcfType) p g (x : tensor F) b o k c : size o = size g -> size k = size g ->
  is_read p g x b o k c (window p g x b o k c).
Proof.
move=> ho hk; rewrite /window; case h: (positions _ _ _ _) => [l|].
  by left; exists l => //; apply/(positionsP p l ho hk).
by right; split=> // l /(positionsP p l ho hk); rewrite h.
Qed.

(* ------------------------------------------------------------------------ *)
Lemma channel_lastP fmt : channels_last fmt -> is_data_format_channel_last fmt.
Proof.
case=> [-> //|[s ->]] /=.
have -> : String.length (String.append s "C"%string) = (String.length s).+1.
  by elim: s => //= a s ->.
apply/String.eqb_eq.
by elim: s => [|a s ih] //=.
Qed.

Lemma spatial_cons b s c : spatial (b :: s ++ [:: c]) = s.
Proof.
rewrite /spatial /= size_cat /= addn1 !subSS subn0.
by rewrite take_size_cat.
Qed.

Lemma last_cat1 (s : seq nat) c : last 0%N (s ++ [:: c]) = c.
Proof. by rewrite cats1 last_rcons. Qed.
Lemma last_cons b (s : seq nat) c : last 0%N (b :: s ++ [:: c]) = c.
Proof. by rewrite /= cats1 last_rcons. Qed.

(** A shape with a batch and a channel dimension. *)
Lemma shape_split (s : seq nat) : (1 < size s)%N -> s = head 0%N s :: spatial s ++ [:: last 0%N s].
Proof.
case: s => [|b s] //=; case/lastP: s => [|s c] // _.
by rewrite /= last_rcons -cats1 /spatial /= size_cat /= addn1 !subSS subn0 take_size_cat.
Qed.

Section Conv.
Variable F : rcfType.
Notation tensor := (tensor F).

(** What acceptance by tf.nn.convolution says. *)
Record conv_accepted (x : tensor) (fs : seq nat) p strides rates (y : tensor) (f : tensor) : Prop := {
  ca_rank : (3 <= size (shp x) <= 5)%N;
  ca_filter : size fs = size (shp x);
  ca_strides : size (odflt (nseq (size (shp x) - 2) 1%N) strides) = (size (shp x) - 2)%N;
  ca_rates : size (odflt (nseq (size (shp x) - 2) 1%N) rates) = (size (shp x) - 2)%N;
  ca_in : last 0%N (shp x) = nth 0%N fs (size (shp x) - 2);
  ca_out : y = Tensor (head 0%N (shp x) :: [seq d_out p e | e <- geometry (shp x) fs strides rates] ++
                         [:: nth 0%N fs (size (shp x) - 1)])
                 (fun idx => conv_entry p (geometry (shp x) fs strides rates) x f
                               (take (size (shp x) - 2) fs) (last 0%N (shp x))
                               (head 0%N idx) (spatial idx) (last 0%N idx)) }.

Lemma convolutionP x f p strides rates y : convolution x f p strides rates = Ok y ->
  conv_accepted x (shp f) p strides rates y f.
Proof.
rewrite /convolution; case: ifP => // h1; case: ifP => // h2; case: ifP => // h3.
case: ifP => // /negbFE /eqP h4; case: ifP => // h5 [<-].
move/negbT: h1; rewrite !negb_or -!leqNgt negbK => /andP [/andP [a b] /eqP c].
move/negbT: h2; rewrite !negb_or !negbK => /andP [/andP [/andP [/eqP d /eqP e] _] _].
split=> //; first by rewrite a b.
by rewrite h4.
Qed.

(** Acceptance depends on the shape of the filter only, and not on the number of output
    channels. *)
Lemma convolution_shape (x f f' : tensor) p strides rates y : convolution x f p strides rates = Ok y ->
  size (shp f') = size (shp f) -> take (size (shp f) - 1) (shp f') = take (size (shp f) - 1) (shp f) ->
  exists y', convolution x f' p strides rates = Ok y'.
Proof.
rewrite /convolution; case: ifP => // h1; case: ifP => // h2; case: ifP => // h3.
move=> h hs ht.
have hr : size (shp f) = size (shp x) by case: eqP h1 => //; rewrite orbT.
have h3r : (2 < size (shp x))%N by move: h1; rewrite ltnNge; case: leqP.
rewrite hr in ht.
have hk : take (size (shp x) - 2) (shp f') = take (size (shp x) - 2) (shp f).
  have e : (size (shp x) - 2 <= size (shp x) - 1)%N by rewrite leq_sub2l.
  by rewrite -(take_take e (shp f')) ht take_take.
have hc : nth 0%N (shp f') (size (shp x) - 2) = nth 0%N (shp f) (size (shp x) - 2).
  have e : (size (shp x) - 2 < size (shp x) - 1)%N by case: (size (shp x)) h3r => [|[|n]] //; rewrite !subSS !subn0.
  by rewrite -(nth_take 0%N e) ht nth_take.
rewrite hs h1 {h1}; cbv zeta; rewrite hk hc; move: h; case: ifP => // h4; case: ifP => // h5 _.
by eexists.
Qed.
End Conv.
