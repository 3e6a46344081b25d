(** The number of positions that the convolution blocks count. *)
From Coq Require Import String ZArith Lia.
From Verif Require Import Base.Py.
From Verif Require Tensors.Model.
From mathcomp Require Import all_ssreflect.
From Verif.Ops Require Import Tensor Model Spec TensorProofs ConvProofs.
Set Implicit Arguments.
Unset Strict Implicit.
Unset Printing Implicit Defensive.
Delimit Scope Z_scope with ZZ.

Lemma ceil_div_nat (x s : nat) : (0 < s)%N ->
  Verif.Tensors.Model.ceil_div (Z.of_nat x) (Z.of_nat s) = Z.of_nat ((x + s.-1) %/ s).
Proof.
move=> hs; have := divn_eq (x + s.-1) s; have := ltn_pmod (x + s.-1) hs.
set q := _ %/ _; set r := _ %% _ => /ltP hr; rewrite -[in X in X -> _](prednK hs).
case: s hs q r hr => // s _ q r hr; rewrite /= /muln /muln_rec /addn /addn_rec => h.
rewrite /Verif.Tensors.Model.ceil_div.
have e : (- Z.of_nat x = Z.of_nat s.+1 * (- Z.of_nat q) + (Z.of_nat s - Z.of_nat r))%ZZ by nia.
have := Z.div_unique (- Z.of_nat x) (Z.of_nat s.+1) (- Z.of_nat q) (Z.of_nat s - Z.of_nat r).
move=> H; rewrite -H //; [lia|left; lia].
Qed.

Definition counted (p : padding) (d : dim) : Z :=
  match p with
  | VALID => Verif.Tensors.Model.ceil_div (Z.of_nat (d_size d) - Z.of_nat (d_filter d) + 1) (Z.of_nat (d_stride d))
  | SAME => Verif.Tensors.Model.ceil_div (Z.of_nat (d_size d)) (Z.of_nat (d_stride d))
  end.

Lemma counted_out p d : d_stride d != 0 -> d_filter d != 0 -> d_out p d != 0 ->
  p = SAME \/ d_rate d = 1 -> counted p d = Z.of_nat (d_out p d).
Proof.
case: d => n f s r /= hs hf; rewrite /counted /d_out /d_extent /=.
case: p => ho hr; first by rewrite ceil_div_nat // lt0n.
case: hr ho => // ->; rewrite muln1 prednK ?lt0n // => ho.
have hs0 : (0 < s)%N by rewrite lt0n.
have hfn : (f <= n)%N.
  rewrite leqNgt; apply/negP => hlt; move: ho; rewrite divn_small //.
  by apply: (leq_ltn_trans (leq_sub2l _ hlt)); rewrite subnS addKn prednK.
have -> : (Z.of_nat n - Z.of_nat f + 1 = Z.of_nat (n - f).+1)%ZZ.
  move/leP: hfn; rewrite /subn /subn_rec; lia.
rewrite ceil_div_nat //; congr (Z.of_nat (_ %/ _)).
by rewrite addSnnS prednK // addnBAC.
Qed.

Lemma block_locations r (inputs fs : seq nat) p strides rates :
  let g := geometry inputs fs strides rates in
  (size inputs == 3) || (size inputs == 4) -> size fs = size inputs ->
  size (odflt (nseq (size inputs - 2) 1) strides) = size inputs - 2 ->
  size (odflt (nseq (size inputs - 2) 1) rates) = size inputs - 2 ->
  spelled_in_full strides (block_strides r) ->
  block_num_locations r inputs fs p = Ok (foldr Z.mul 1%ZZ [seq counted p d | d <- g]).
Proof.
move=> g /orP [] /eqP hr hf hs hd hsp; rewrite /g /geometry /block_num_locations /spatial hr /=.
- case: inputs hr hf hs hd {g} => [|a [|b [|c []]]] //= _; case: fs => [|f1 [|f2 [|f3 []]]] //= _ hs hd.
  have [s1 [es hst]] : exists s1, odflt [:: 1] strides = [:: s1] /\
      match omap (map Z.of_nat) (block_strides r) with Some s => s | None => [:: 1; 1; 1]%ZZ end = [:: List.nth 0 (match omap (map Z.of_nat) (block_strides r) with Some s => s | None => [:: 1; 1; 1]%ZZ end) 0%ZZ; Z.of_nat s1; List.nth 2 (match omap (map Z.of_nat) (block_strides r) with Some s => s | None => [:: 1; 1; 1]%ZZ end) 0%ZZ].
    case: hsp hs => [[-> ->]|[l [x [y [-> ->]]]]] /=; first by exists 1.
    by case: l => [|s1 []] //= _; exists s1.
  have [r1 er] : exists r1, odflt [:: 1] rates = [:: r1] by case: (odflt _ _) hd => [|r1 []] //; exists r1.
  rewrite es er /= /Verif.Tensors.Model.num_conv_locations /=.
  rewrite hst /=; case: p => /=; rewrite /counted /= Z.mul_1_r //.
- case: inputs hr hf hs hd {g} => [|a [|b [|c [|d []]]]] //= _; case: fs => [|f1 [|f2 [|f3 [|f4 []]]]] //= _ hs hd.
  have [s1 [s2 [es hst]]] : exists s1 s2, odflt [:: 1; 1] strides = [:: s1; s2] /\
      match omap (map Z.of_nat) (block_strides r) with Some s => s | None => [:: 1; 1; 1; 1]%ZZ end = [:: List.nth 0 (match omap (map Z.of_nat) (block_strides r) with Some s => s | None => [:: 1; 1; 1; 1]%ZZ end) 0%ZZ; Z.of_nat s1; Z.of_nat s2; List.nth 3 (match omap (map Z.of_nat) (block_strides r) with Some s => s | None => [:: 1; 1; 1; 1]%ZZ end) 0%ZZ].
    case: hsp hs => [[-> ->]|[l [x [y [-> ->]]]]] /=; first by exists 1, 1.
    by case: l => [|s1 [|s2 []]] //= _; exists s1, s2.
  have [r1 [r2 er]] : exists r1 r2, odflt [:: 1; 1] rates = [:: r1; r2] by case: (odflt _ _) hd => [|r1 [|r2 []]] //; exists r1, r2.
  rewrite es er /= /Verif.Tensors.Model.num_conv_locations /=.
  rewrite hst /=; case: p => /=; rewrite /counted /= Z.mul_1_r //.
Qed.

Lemma prod_out p (g : seq dim) :
  all (fun d => (d_stride d != 0) && (d_filter d != 0)) g -> p = SAME \/ all (fun d => d_rate d == 1) g ->
  num_entries [seq d_out p d | d <- g] != 0 ->
  foldr Z.mul 1%ZZ [seq counted p d | d <- g] = Z.of_nat (num_entries [seq d_out p d | d <- g]).
Proof.
elim: g => [|d g IH] //; rewrite !map_cons num_entries_cons muln_eq0 negb_or ![all _ (_ :: _)]/=.
move=> /andP [/andP [ha hb] hc] hr /andP [h1 h2]; rewrite [foldr _ _ _]/=.
rewrite IH //; last by case: hr => [->|/andP [_ h]]; [left|right].
rewrite counted_out // ?Nat2Z.inj_mul //.
by case: hr => [->|/andP [/eqP h _]]; [left|right].
Qed.

Lemma geometry_all (P : dim -> bool) n k s d : size k = size n -> size s = size n -> size d = size n ->
  (forall i, i < size n -> P (Dim (nth 0 n i) (nth 0 k i) (nth 0 s i) (nth 0 d i))) -> all P (dims n k s d).
Proof.
elim: n k s d => [|n0 n IH] [|k0 k] [|s0 s] [|d0 d] //= [hk] [hs] [hd] h.
rewrite /dims /= (h 0) //=; apply: IH => // i hi; exact: (h i.+1).
Qed.

(** The count is right without dilation, or with SAME padding. *)
Theorem locations_counted r (inputs fs : seq nat) p strides rates :
  let g := geometry inputs fs strides rates in
  (size inputs == 3) || (size inputs == 4) -> size fs = size inputs ->
  num_entries (take (size inputs - 2) fs) != 0 ->
  (forall l, strides = Some l -> size l = size inputs - 2 /\ all (fun n => 0 < n) l) ->
  (forall l, rates = Some l -> size l = size inputs - 2) ->
  spelled_in_full strides (registered_strides r) ->
  is_sua r = false \/ strides = Some (nseq (size inputs - 2) 1) ->
  p = SAME \/ rates = None \/ rates = Some (nseq (size inputs - 2) 1) ->
  num_entries [seq d_out p d | d <- g] != 0 ->
  block_num_locations r inputs fs p = Ok (Z.of_nat (num_entries [seq d_out p d | d <- g])).
Proof.
move=> g hr hf hk hs hd hsp hsua hrate ho.
have hsz : size (odflt (nseq (size inputs - 2) 1) strides) = size inputs - 2.
  by case: strides hs {g hsp hsua ho} => [l /(_ l erefl) []|_] //=; rewrite size_nseq.
have hpos : all (fun n => 0 < n) (odflt (nseq (size inputs - 2) 1) strides).
  by case: strides hs {g hsp hsua ho hsz} => [l /(_ l erefl) []|_] //=; rewrite all_nseq orbT.
have hdz : size (odflt (nseq (size inputs - 2) 1) rates) = size inputs - 2.
  by case: rates hd {g hrate ho} => [l /(_ l erefl)|_] //=; rewrite size_nseq.
have hspz : size (spatial inputs) = size inputs - 2.
  rewrite /spatial size_takel // size_behead; by case/orP: hr => /eqP ->.
have hkz : size (take (size inputs - 2) fs) = size inputs - 2 by rewrite size_takel // hf leq_subr.
have hg1 : all (fun d => (d_stride d != 0) && (d_filter d != 0)) g.
  apply: geometry_all; rewrite ?hspz // => i hi /=; rewrite -!lt0n.
  rewrite (allP hpos) ?mem_nth ?hsz //= lt0n.
  have hin : nth 0 (take (size inputs - 2) fs) i \in take (size inputs - 2) fs by rewrite mem_nth ?hkz.
  apply/negP => /eqP h0; rewrite h0 in hin.
  have h00 : forall l : seq nat, 0 \in l -> num_entries l = 0.
    by elim=> // a l IH; rewrite inE num_entries_cons => /orP [/eqP <-|/IH ->]; rewrite ?mul0n ?muln0.
  by rewrite h00 in hk.
have hg2 : p = SAME \/ all (fun d => d_rate d == 1) g.
  case: hrate => [->|hrate]; [by left|right].
  apply: geometry_all; rewrite ?hspz // => i hi /=.
  by case: hrate => ->; rewrite /= nth_nseq hi.
have [s' [hs' [eg hsz']]] : exists s', spelled_in_full s' (block_strides r) /\
    g = geometry inputs fs s' rates /\ size (odflt (nseq (size inputs - 2) 1) s') = size inputs - 2.
  case: r hsp hsua => [s|s|s|s|s|s] hsp hsua; try by exists strides.
  exists None; split; first by left.
  by split; [case: hsua => // e; rewrite /g /geometry e | rewrite size_nseq].
by rewrite (block_locations p hr hf hsz' hdz hs') -eg prod_out.
Qed.

(** Strides per spatial dimension, as documented for register_convolution, are refused. *)
Theorem spatial_strides_raise (inputs fs l : seq nat) p :
  (size inputs == 3) || (size inputs == 4) -> size fs = size inputs -> size l = size inputs - 2 ->
  block_num_locations (Convolution (Some l)) inputs fs p = Raise IndexError.
Proof.
move=> /orP [] /eqP hr hf hl; rewrite /block_num_locations; move: hf hl; rewrite hr.
- case: inputs hr => [|a [|b [|c []]]] //= _; case: fs => [|f1 [|f2 [|f3 []]]] //= _.
  by case: l => [|s1 []].
- case: inputs hr => [|a [|b [|c [|d []]]]] //= _; case: fs => [|f1 [|f2 [|f3 [|f4 []]]]] //= _.
  by case: l => [|s1 [|s2 []]].
Qed.
