(** Depthwise blocks. *)
From mathcomp Require Import all_ssreflect all_algebra.
From Verif.Base Require Import Py.
From Verif.Blocks Require Import Model Spec MatProofs PsdProofs FactorProofs BlockProofs EndProofs.
From Verif.Ops Require Import Depthwise DepthwiseSpec.
Set Implicit Arguments.
Unset Strict Implicit.
Unset Printing Implicit Defensive.
Import GRing.Theory Num.Theory.
Local Open Scope ring_scope.

Section Depthwise.
Variables (F : rcfType) (k c n : nat).

Lemma depthwise_entries A G (v : 'M[F]_(k * c, n)) s p ch j :
  depthwise_multiply_factored (FullMatrix A) (FullMatrix G) v s false false (rm_pos p ch) j =
  s * \sum_(q < k) \sum_(ch' < c) \sum_(i < n)
      A (rm_pos p ch) (rm_pos q ch') * v (rm_pos q ch') i * G (rm_pos ch' i) (rm_pos ch j).
Proof.
rewrite mxE rm_colK /multiply_factored_matrix /=.
have -> : (if s != 1 then s *: (A *m (filter_to_conv2d v *m G)) else A *m (filter_to_conv2d v *m G)) =
  s *: (A *m (filter_to_conv2d v *m G)) by case: eqP => //= ->; rewrite scale1r.
rewrite mxE mxE sum_rm; congr (_ * _); apply: eq_bigr => q _; apply: eq_bigr => ch' _.
rewrite mxE sum_rm mulr_sumr (bigD1 ch') //= [X in _ + X]big1 ?addr0.
  rewrite mulr_sumr; apply: eq_bigr => i _.
  by rewrite mxE !rm_colK !rm_rowK eqxx mulrA.
move=> ch2 hne; rewrite big1 ?mulr0 // => i _.
by rewrite mxE rm_colK rm_rowK eq_sym (negPf hne) mul0r.
Qed.

(** Each channel by itself, if one of the factors does not mix channels. *)
Lemma depthwise_isolated A G (v : 'M[F]_(k * c, n)) s ch :
  in_uncorrelated A \/ out_uncorrelated G ->
  channel ch (depthwise_multiply_factored (FullMatrix A) (FullMatrix G) v s false false) =
  s *: (in_block ch A *m channel ch v *m out_block ch G).
Proof.
move=> hu; apply/matrixP => p j; rewrite mxE depthwise_entries mxE; congr (_ * _).
rewrite -mulmxA mxE; apply: eq_bigr => q _.
rewrite (bigD1 ch) //= [X in _ + X]big1 ?addr0.
  by rewrite !mxE mulr_sumr; apply: eq_bigr => i _; rewrite !mxE mulrA.
move=> ch' hne; rewrite big1 // => i _; case: hu => hu.
  by rewrite hu ?mul0r // eq_sym.
by rewrite hu ?mulr0.
Qed.

Lemma channelP (f g : 'M[F]_(k * c, n)) : (forall ch, channel ch f = channel ch g) -> f = g.
Proof.
move=> h; apply/matrixP => r j; rewrite -(rm_posK r).
by have /matrixP /(_ (rm_row r) j) := h (rm_col r); rewrite !mxE.
Qed.

Lemma in_block_mul (A B : 'M[F]_(k * c)) ch : in_uncorrelated A \/ in_uncorrelated B ->
  in_block ch A *m in_block ch B = in_block ch (A *m B).
Proof.
move=> hu; apply/matrixP => p q; rewrite !mxE sum_rm; apply: eq_bigr => r _.
rewrite !mxE (bigD1 ch) //= [X in _ = _ + X]big1 ?addr0 // => ch' hne.
by case: hu => hu; rewrite hu ?mul0r ?mulr0 // eq_sym.
Qed.
Lemma out_block_mul (A B : 'M[F]_(c * n)) ch : out_uncorrelated A \/ out_uncorrelated B ->
  out_block ch A *m out_block ch B = out_block ch (A *m B).
Proof.
move=> hu; apply/matrixP => p q; rewrite !mxE sum_rm (bigD1 ch) //= [X in _ = _ + X]big1 ?addr0.
  by apply: eq_bigr => r _; rewrite !mxE.
move=> ch' hne; rewrite big1 // => i _.
by case: hu => hu; rewrite hu ?mul0r ?mulr0 // eq_sym.
Qed.
Lemma rm_pos_eq m1 m2 (i i' : 'I_m1) (j j' : 'I_m2) : (rm_pos i j == rm_pos i' j') = (i == i') && (j == j').
Proof.
apply/eqP/andP => [e|[/eqP -> /eqP ->]] //.
by split; apply/eqP; [rewrite -(rm_rowK i j) e rm_rowK | rewrite -(rm_colK i j) e rm_colK].
Qed.
Lemma in_block1 (ch : 'I_c) : in_block ch (1%:M : 'M[F]_(k * c)) = 1%:M.
Proof. by apply/matrixP => p q; rewrite !mxE rm_pos_eq eqxx andbT. Qed.
Lemma out_block1 (ch : 'I_c) : out_block ch (1%:M : 'M[F]_(c * n)) = 1%:M.
Proof. by apply/matrixP => p q; rewrite !mxE rm_pos_eq eqxx. Qed.

(** The inverse of a matrix that does not mix channels does not either. *)
Lemma in_uncorrelated_inv (A : 'M[F]_(k * c)) B : in_uncorrelated A -> A *m B = 1%:M -> in_uncorrelated B.
Proof.
move=> hA h.
pose D : 'M[F]_(k * c) := \matrix_(r, s) if rm_col r == rm_col s then B r s else 0.
suff -> : B = D by move=> p q ch ch' hne; rewrite mxE !rm_colK (negPf hne).
have hAD : A *m D = 1%:M.
  apply/matrixP => r s; rewrite -(rm_posK r) -(rm_posK s).
  have [e|hne] := eqVneq (rm_col r) (rm_col s).
    rewrite -h !mxE; apply: eq_bigr => t _; rewrite -(rm_posK t) mxE !rm_colK.
    by case: eqP => // hn; rewrite hA ?mul0r // e; apply/eqP => e'; case: hn.
  rewrite !mxE rm_pos_eq (negPf hne) andbF /= big1 // => t _.
  rewrite -(rm_posK t) mxE !rm_colK; case: eqP => [e|]; last by rewrite mulr0.
  by rewrite hA ?mul0r // e.
have hBA := mulmx1C h.
by rewrite -[B]mulmx1 -hAD mulmxA hBA mul1mx.
Qed.
Lemma out_uncorrelated_inv (A : 'M[F]_(c * n)) B : out_uncorrelated A -> A *m B = 1%:M -> out_uncorrelated B.
Proof.
move=> hA h.
pose D : 'M[F]_(c * n) := \matrix_(r, s) if rm_row r == rm_row s then B r s else 0.
suff -> : B = D by move=> p q ch ch' hne; rewrite mxE !rm_rowK (negPf hne).
have hAD : A *m D = 1%:M.
  apply/matrixP => r s; rewrite -(rm_posK r) -(rm_posK s).
  have [e|hne] := eqVneq (rm_row r) (rm_row s).
    rewrite -h !mxE; apply: eq_bigr => t _; rewrite -(rm_posK t) mxE !rm_rowK.
    by case: eqP => // hn; rewrite hA ?mul0r // e; apply/eqP => e'; case: hn.
  rewrite !mxE rm_pos_eq (negPf hne) /= big1 // => t _.
  rewrite -(rm_posK t) mxE !rm_rowK; case: eqP => [e|]; last by rewrite mulr0.
  by rewrite hA ?mul0r // e.
have hBA := mulmx1C h.
by rewrite -[B]mulmx1 -hAD mulmxA hBA mul1mx.
Qed.

Lemma depthwise_undo A A' G G' s s' (v : 'M[F]_(k * c, n)) :
  in_uncorrelated A -> out_uncorrelated G -> A *m A' = 1%:M -> G *m G' = 1%:M -> s' * s = 1 ->
  depthwise_multiply_factored (FullMatrix A') (FullMatrix G')
    (depthwise_multiply_factored (FullMatrix A) (FullMatrix G) v s false false) s' false false = v.
Proof.
move=> uA uG hA hG hs; have uA' := in_uncorrelated_inv uA hA; have uG' := out_uncorrelated_inv uG hG.
apply: channelP => ch; rewrite depthwise_isolated; last by left.
rewrite depthwise_isolated; last by left.
rewrite -scalemxAr -scalemxAl scalerA hs scale1r !mulmxA in_block_mul; last by left.
rewrite -!mulmxA out_block_mul; last by left.
by rewrite hG (mulmx1C hA) in_block1 out_block1 mulmx1 mul1mx.
Qed.

(** The diagonal block scales every coordinate of the depthwise filter. *)
Lemma depthwise_diagonal_entries (d : 'rV[F]_(k * c * (c * n))) (v : 'M[F]_(k * c, n)) r j :
  depthwise_diagonal_multiply (DiagOp d) v r j = d 0 (rm_pos r (rm_pos (rm_col r) j)) * v r j.
Proof.
rewrite mxE /diagonal_multiply /full_multiply_matrix /= mxE mxE vecE mxE rm_rowK eqxx rm_colK //.
Qed.
End Depthwise.

Section Undo.
Variable F : rcfType.
Variable eigh : forall n, 'M[F]_n -> 'rV[F]_n * 'M[F]_n.
Variable pow : F -> F -> F.
Hypothesis eighP : eigh_contract eigh.
Hypothesis powP : power_laws pow.
Variables (th : nat) (clip : F) (meth : posdef_inv_method).
Hypothesis clip0 : clip <= 0.
Variables (k c n : nat) (regsA regsG : seq (registration F)) (dampA dampG : nat -> F).
Variables (A : 'M[F]_(k * c)) (G : 'M[F]_(c * n)) (sA : dense F (k * c)) (sG : dense F (c * n)).
Variables (ia ig : nat) (renorm : F).
Hypothesis upA : up_to_date eigh pow th clip meth regsA dampA A sA.
Hypothesis upG : up_to_date eigh pow th clip meth regsG dampG G sG.
Hypothesis hA : psd A.
Hypothesis hG : psd G.
Hypothesis pA : 0 < dampA ia.
Hypothesis pG : 0 < dampG ig.
Hypothesis pr : 0 < renorm.
Hypothesis rA : List.In (RegMatpower (-1) ia) regsA.
Hypothesis rG : List.In (RegMatpower (-1) ig) regsG.
Notation multiply := (depthwise_multiply_matpower pow (fun e => get_matpower sA dampA e ia)
                      (fun e => get_matpower sG dampG e ig) renorm).

Lemma depthwise_served :
  (forall v, multiply v 1 = Ok (depthwise_multiply_factored (FullMatrix (A + dampA ia *: 1%:M))
                               (FullMatrix (G + dampG ig *: 1%:M)) v renorm false false)) /\
  (forall v, multiply v (-1) = Ok (depthwise_multiply_factored (FullMatrix (invmx (A + dampA ia *: 1%:M)))
                               (FullMatrix (invmx (G + dampG ig *: 1%:M))) v renorm^-1 false false)).
Proof.
split=> v; rewrite /depthwise_multiply_matpower.
  by rewrite (current_one upA) (current_one upG) (pow_one powP).
have [P [-> hP]] := current_any eighP powP clip0 upA (or_intror rA) hA pA.
have [Q [-> hQ]] := current_any eighP powP clip0 upG (or_intror rG) hG pG.
by rewrite (matpower_invE powP hP) (matpower_invE powP hQ) (pow_minus_one powP).
Qed.

Lemma depthwise_undoes e e' v : in_uncorrelated A -> out_uncorrelated G ->
  (e = 1 /\ e' = -1) \/ (e = -1 /\ e' = 1) -> exists w, multiply v e = Ok w /\ multiply w e' = Ok v.
Proof.
move=> uA uG he; have [h1 h2] := depthwise_served.
have uA' : in_uncorrelated (A + dampA ia *: 1%:M).
  by move=> p q ch ch' hne; rewrite 3!mxE uA // rm_pos_eq (negPf hne) andbF mulr0 addr0.
have uG' : out_uncorrelated (G + dampG ig *: 1%:M).
  by move=> p q ch ch' hne; rewrite 3!mxE uG // rm_pos_eq (negPf hne) mulr0 addr0.
have iA : A + dampA ia *: 1%:M \in unitmx by apply: pd_unit; apply: psd_damped.
have iG : G + dampG ig *: 1%:M \in unitmx by apply: pd_unit; apply: psd_damped.
have r0 : renorm != 0 := lt0r_neq0 pr.
case: he => -[-> ->]; eexists; (split; first by rewrite ?h1 ?h2; reflexivity); rewrite ?h1 ?h2; congr Ok.
  by apply: depthwise_undo; rewrite ?mulmxV ?mulVf.
apply: depthwise_undo; rewrite ?mulVmx ?mulfV //.
  by apply: (in_uncorrelated_inv uA'); rewrite mulmxV.
by apply: (out_uncorrelated_inv uG'); rewrite mulmxV.
Qed.

Lemma depthwise_channel v w ch : in_uncorrelated A \/ out_uncorrelated G -> multiply v 1 = Ok w ->
  channel ch w = renorm *: ((in_block ch A + dampA ia *: 1%:M) *m channel ch v *m
                            (out_block ch G + dampG ig *: 1%:M)).
Proof.
move=> hu; have [-> _] := depthwise_served; case=> <-; rewrite depthwise_isolated.
  by congr (_ *: (_ *m _ *m _)); apply/matrixP => i j; rewrite !mxE rm_pos_eq eqxx ?andbT.
case: hu => [uA|uG]; [left|right] => p q ch1 ch2 hne; rewrite 3!mxE.
  by rewrite uA // rm_pos_eq (negPf hne) andbF mulr0 addr0.
by rewrite uG // rm_pos_eq (negPf hne) mulr0 addr0.
Qed.
End Undo.

(** With correlated channels the block does neither. *)
Section Refuted.
Variable F : rcfType.
Definition ones (m : nat) : 'M[F]_m := const_mx 1.

Lemma ones_psd m : psd (ones m).
Proof.
split; first by apply/matrixP => i j; rewrite !mxE.
move=> x; have -> : x^T *m ones m *m x = (x^T *m const_mx 1) *m (x^T *m (const_mx 1 : 'cV[F]_m))^T.
  have -> : ones m = const_mx 1 *m (const_mx 1 : 'cV[F]_m)^T.
    by apply/matrixP => i j; rewrite !mxE big_ord1 !mxE mulr1.
  by rewrite trmx_mul trmxK !mulmxA.
by rewrite mxE big_ord1 [X in _ * X]mxE -expr2 sqr_ge0.
Qed.

Notation L := (ones 2 + 1 *: 1%:M : 'M[F]_2).
Definition L' : 'M[F]_2 := \matrix_(i, j) (if i == j then 2%:R / 3%:R else - 3%:R^-1).
Lemma three : 3%:R != 0 :> F. Proof. by rewrite pnatr_eq0. Qed.

Lemma L_inv : invmx L = L'.
Proof.
have h : L' *m L = 1%:M.
  apply/matrixP => i j; rewrite mxE !big_ord_recl big_ord0 !mxE addr0 !mul1r.
  have e1 : 1 + 1 = 2%:R :> F by [].
  have e2 : 2%:R / 3%:R * 2%:R + - 3%:R^-1 * 1 = 1 :> F.
    by rewrite mulr1 mulrAC -natrM (natrD _ 3 1) mulrDl mulfV ?three // mul1r addrK.
  have e3 : 2%:R / 3%:R * 1 + - 3%:R^-1 * 2%:R = 0 :> F.
    by rewrite mulr1 mulNr [3%:R^-1 * _]mulrC subrr.
  case: i => -[|[|//]] hi; case: j => -[|[|//]] hj /=; rewrite ?mulr0n ?mulr1n ?addr0 ?e1.
  - exact: e2.
  - exact: e3.
  - by rewrite addrC; exact: e3.
  - by rewrite addrC; exact: e2.
have [_ hu] := mulmx1_unit h.
have := congr1 (mulmx^~ (invmx L)) h; rewrite -mulmxA mulmxV // mulmx1 => ->.
by rewrite mul1mx.
Qed.

(** Two channels, one position, multiplier one: the first channel only. *)
Definition first_channel : 'M[F]_(1 * 2, 1) := \matrix_(r, j) (nat_of_ord r == 0%N)%:R.

Lemma small_entries (A G : 'M[F]_2) (v : 'M[F]_(1 * 2, 1)) s (ch : 'I_2) :
  depthwise_multiply_factored (k := 1) (c := 2) (n := 1) (FullMatrix A) (FullMatrix G) v s false false
    ch 0 = s * (A ch 0 * v (0 : 'I_2) 0 * G 0 ch + A ch 1 * v (1 : 'I_2) 0 * G 1 ch).
Proof.
have h1 (q : 'I_2) : rm_pos (0 : 'I_1) q = q :> 'I_(1 * 2) by apply: val_inj.
have h2 (q : 'I_2) : rm_pos q (0 : 'I_1) = q :> 'I_(2 * 1) by apply: val_inj; rewrite /= muln1 addn0.
have h3 : lift ord0 ord0 = 1 :> 'I_2 by apply: val_inj.
rewrite -(h1 ch) depthwise_entries !big_ord_recl !big_ord0 !addr0.
by rewrite !h1 !h2 !h3.
Qed.

Lemma spread (ch : 'I_2) :
  depthwise_multiply_factored (k := 1) (c := 2) (n := 1) (FullMatrix L) (FullMatrix L) first_channel 1 false false
    ch 0 = if ch == 0 then 4%:R else 1.
Proof.
rewrite small_entries !mxE /= mulr0 mul0r addr0 mul1r !mulr1 eq_sym; case: eqP => _ /=.
  by rewrite mulr1 -[1 + 1]/(2%:R : F) -natrM.
by rewrite !mulr0 !addr0 mulr1.
Qed.

Lemma not_undone :
  depthwise_multiply_factored (k := 1) (c := 2) (n := 1) (FullMatrix (invmx L)) (FullMatrix (invmx L))
    (depthwise_multiply_factored (k := 1) (c := 2) (n := 1) (FullMatrix L) (FullMatrix L) first_channel 1 false false)
    1^-1 false false != first_channel.
Proof.
apply/eqP => /matrixP /(_ (0 : 'I_2) 0); rewrite small_entries !spread L_inv !mxE /= invr1 mul1r mulr1.
rewrite mulrNN -[2%:R / _ * _ * _]mulrA [4%:R * _]mulrA mulrACA -!natrM.
rewrite -[X in _ + X]mul1r -mulrDl -(natrD _ _ 1) => h.
have : 17%:R = (3 * 3)%:R :> F.
  have := congr1 ( *%R^~ (3 * 3)%:R) h; rewrite mul1r => <-.
  by rewrite -mulrA natrM mulrACA mulVf ?three // !mulr1.
by move/eqP; rewrite eqr_nat.
Qed.
End Refuted.
