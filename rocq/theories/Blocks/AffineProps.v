(** Property theorems C123 (the part about layers, factors and blocks): without damping, an
    affine change of what a layer reads and a linear change of what it produces do not
    matter. *)
From mathcomp Require Import all_ssreflect all_algebra.
From Verif.Base Require Import Py.
From Verif.Blocks Require Import Model Spec MatProofs PsdProofs EigProofs FactorProofs ServeProofs BlockProofs
  StatProofs SuaProofs EndProofs RotateProofs ExactSpec ExactProofs AffineSpec AffineProofs.
Set Implicit Arguments.
Unset Strict Implicit.
Unset Printing Implicit Defensive.
Import GRing.Theory Num.Theory Order.TTheory.
Local Open Scope ring_scope.

(** In all coordinates a layer can be written with its parameters, and the gradient of a
    function of its outputs belongs to the gradients with respect to the new outputs: it
    gives the same first-order change of the function for the same change of the layer. *)
Theorem C123_same_layer :
  forall (F : rcfType) (m n : nat) (has_bias : bool) (Q : 'M[F]_m) (c : 'rV[F]_m) (N : 'M[F]_n),
    change_of_inputs has_bias Q c -> N \in unitmx ->
    (forall v : params F m n has_bias, exists v', same_layer Q c N v v') /\
    (forall v v' w : params F m n has_bias, same_layer Q c N v v' -> same_layer Q c N v w -> w = v') /\
    (forall (u u' : params F m n has_bias) cu cu' g g' uses,
       same_layer Q c N u u' -> is_column u cu -> is_column u' cu' ->
       is_gradient (m := m) (n := n) (has_bias := has_bias) uses g ->
       is_gradient [seq (new_input Q c l.1, new_gradient N l.2) | l <- uses] g' ->
       g'^T *m cu' = g^T *m cu).
Proof.
move=> F m n b Q c N hc hN; split; first by move=> v; exact: same_exists.
split; first by move=> v v' w h1 h2; exact: (same_unique hc h2 h1).
by move=> u u' cu cu' g g' uses h /is_column_unique -> /is_column_unique -> hg hg'; exact: (pairing_same hc hN h hg hg').
Qed.
Print Assumptions C123_same_layer.

(** After any history of updates the two covariances are those of the new coordinates. *)
Theorem C123_covariances :
  forall (F : rcfType) (normalize : bool) (r s t m n : nat) (has_bias : bool)
         (Q : 'M[F]_m) (c : 'rV[F]_m) (N : 'M[F]_n),
    change_of_inputs has_bias Q c -> N \in unitmx ->
    let moved X (f : X -> X) (updates : seq ((nat -> nat -> nat -> X) * (F * F))) :=
      [seq (fun r s t => f (u.1 r s t), u.2) | u <- updates] in
    let after X k l (stat : X -> 'M[F]_(k, l)) := covariance_after normalize stat r s t in
    exists T : 'M[F]_(rows m has_bias),
      T \in unitmx /\
      (forall us, after _ _ _ (@input_statistic F m has_bias) (moved _ (map (new_input Q c)) us)
          = T^T *m after _ _ _ (@input_statistic F m has_bias) us *m T) /\
      (forall us, after _ _ _ (@fc_new_cov F n) (moved _ (map (new_gradient N)) us)
          = invmx N *m after _ _ _ (@fc_new_cov F n) us *m (invmx N)^T).
Proof.
move=> F nz r s t m n b Q c N hc hN /=; exists (change b Q c); split; first exact: change_unit.
split=> us.
- by apply: (@history_linear F _ _ _ _ _ _ nz (sides (change b Q c)^T (change b Q c))) => x; apply: input_changed.
- by apply: (@history_linear F _ _ _ _ _ _ nz (sides (invmx N) (invmx N)^T)) => x; apply: output_changed.
Qed.
Print Assumptions C123_covariances.

(** Without damping, when the covariances of the first coordinates can be inverted: from the
    same histories and the same gradients, the natural gradient is the same change of the
    layer in all coordinates, and so are the layers after a step of any length. *)
Theorem C123_natural_gradient :
  forall (F : rcfType) (eigh : forall n, 'M[F]_n -> 'rV[F]_n * 'M[F]_n) (pow : F -> F -> F)
         (threshold : nat) (clip : F) (meth : posdef_inv_method) (normalize : bool) (r s t : nat)
         (m n : nat) (has_bias : bool) (Q : 'M[F]_m) (c : 'rV[F]_m) (N : 'M[F]_n)
         (pi : pi_type) (power : F) (replications : option F)
         (regsA regsG : seq (registration F)) (dampA dampG dampA' dampG' : nat -> F)
         (read : seq ((nat -> nat -> nat -> seq 'rV[F]_m) * (F * F)))
         (produced : seq ((nat -> nat -> nat -> seq 'rV[F]_n) * (F * F)))
         (inputs inputs' : dense F (rows m has_bias)) (outputs outputs' : dense F n)
         (ia ig : nat) (renorm : F) (uses : seq ('rV[F]_m * 'rV[F]_n))
         (g g' : params F m n has_bias) (cg cg' : 'cV[F]_(rows m has_bias * n)),
    let moved X (f : X -> X) (updates : seq ((nat -> nat -> nat -> X) * (F * F))) :=
      [seq (fun r s t => f (u.1 r s t), u.2) | u <- updates] in
    let after X k l (stat : X -> 'M[F]_(k, l)) := covariance_after normalize stat r s t in
    let A := after _ _ _ (@input_statistic F m has_bias) read in
    let G := after _ _ _ (@fc_new_cov F n) produced in
    let A' := after _ _ _ (@input_statistic F m has_bias) (moved _ (map (new_input Q c)) read) in
    let G' := after _ _ _ (@fc_new_cov F n) (moved _ (map (new_gradient N)) produced) in
    eigh_contract eigh -> power_laws pow -> clip <= 0 -> 0 < renorm ->
    change_of_inputs has_bias Q c -> N \in unitmx ->
    psd A -> A \in unitmx -> psd G -> G \in unitmx ->
    setup_damping pow pi power (FullMatrix A) (FullMatrix G) 0 replications = Ok (dampA ia, dampG ig) ->
    setup_damping pow pi power (FullMatrix A') (FullMatrix G') 0 replications = Ok (dampA' ia, dampG' ig) ->
    up_to_date eigh pow threshold clip meth regsA dampA A inputs ->
    up_to_date eigh pow threshold clip meth regsG dampG G outputs ->
    up_to_date eigh pow threshold clip meth regsA dampA' A' inputs' ->
    up_to_date eigh pow threshold clip meth regsG dampG' G' outputs' ->
    List.In (RegMatpower (-1) ia) regsA -> List.In (RegMatpower (-1) ig) regsG ->
    is_column g cg -> is_gradient uses cg ->
    is_column g' cg' -> is_gradient [seq (new_input Q c l.1, new_gradient N l.2) | l <- uses] cg' ->
    exists w w',
      kron_multiply_matpower pow (fun e => get_matpower inputs dampA e ia)
        (fun e => get_matpower outputs dampG e ig) renorm g (-1) = Ok w /\
      kron_multiply_matpower pow (fun e => get_matpower inputs' dampA' e ia)
        (fun e => get_matpower outputs' dampG' e ig) renorm g' (-1) = Ok w' /\
      same_layer Q c N w w' /\
      (forall lr v v', same_layer Q c N v v' -> same_layer Q c N (updated lr v w) (updated lr v' w')).
Proof.
move=> F eigh pow th clip meth nz r s t m n b Q c N pt power rep rA rG dA dG dA' dG' read prod sA sA' sG sG'
  ia ig renorm uses g g' cg cg' /= he hp hc r0 hQ hN hA uA hG uG e1 e2 tA tG tA' tG' iA iG cG gG cG' gG'.
have [z1 z2] := no_damping e1; have [z3 z4] := no_damping e2.
have [||w [w' [h1 [h2 h3]]]] := direction_changed he hp hc hQ hN r0 hA uA hG uG _ _ z1 z2 z3 z4 tA tG tA' tG' iA iG cG cG' gG gG'.
- by apply: (@history_linear F _ _ _ _ _ _ nz (sides (change b Q c)^T (change b Q c))) => x; apply: input_changed.
- by apply: (@history_linear F _ _ _ _ _ _ nz (sides (invmx N) (invmx N)^T)) => x; apply: output_changed.
exists w, w'; do 3 split=> //; move=> lr v v' h; exact: same_updated.
Qed.
Print Assumptions C123_natural_gradient.

(** The hypotheses can be met: a layer with bias, one input and one output, read once with input
    0 and once with input 1, in the coordinates in which the input is doubled and shifted by one
    and the output is tripled. *)
Example C123_met : forall F : rcfType,
  exists (Q : 'M[F]_1) (c : 'rV[F]_1) (N : 'M[F]_1) (xs : seq 'rV[F]_1) (gs : seq 'rV[F]_1),
    [/\ change_of_inputs true Q c, Q != 1%:M, c != 0 & N \in unitmx /\ N != 1%:M] /\
    [/\ psd (input_statistic true xs), input_statistic true xs \in unitmx,
        psd (fc_new_cov gs) & fc_new_cov gs \in unitmx].
Proof.
move=> F; exists 2%:R%:M, 1%:M, 3%:R%:M, [:: 0; 1%:M], [:: 1%:M].
have s1 (k : nat) : (k.+1%:R%:M : 'M[F]_1) \in unitmx by rewrite unitmxE det_scalar unitfE expf_neq0 // pnatr_eq0.
have s2 (k : nat) : (k.+2%:R%:M : 'M[F]_1) != 1%:M.
  apply/negP => /eqP /matrixP /(_ 0 0); rewrite !mxE /= !mulr1n => /eqP.
  by rewrite (eqr_nat F k.+2 1).
split; split.
- by split.
- exact: s2.
- by apply/negP => /eqP /matrixP /(_ 0 0); rewrite !mxE /= => /eqP; rewrite oner_eq0.
- by split.
- by rewrite input_avg; apply: psd_avg => x; exact: psd_outer.
- rewrite input_avg /avg /= !big_cons big_nil addr0 /append_homog !tr_row_mx !mul_col_row add_block_mx scale_block_mx.
  rewrite !trmx1 !mulmx1 !trmx0 !mulmx0 ?mul0mx !add0r.
  pose B : 'M[F]_(1 + 1) := block_mx 4%:R%:M (- 2%:R)%:M (- 2%:R)%:M 2%:R%:M.
  have e : forall X Y Z W : 'M[F]_1, block_mx X Y Z W *m B = 1%:M -> block_mx X Y Z W \in unitmx.
    by move=> X Y Z W /mulmx1_unit [].
  apply: e; rewrite /B mulmx_block.
  have n2 : 2%:R != 0 :> F by rewrite pnatr_eq0.
  have h4 : 2%:R^-1 * 4%:R = 2%:R :> F by rewrite -[4%:R]/((2 * 2)%N%:R) natrM mulKf.
  rewrite [RHS]scalar_mx_block; congr block_mx; apply/matrixP => i j;
    rewrite !ord1 !mxE !big_ord_recl !big_ord0 !mxE /= ?mulr1n ?addr0 ?mulr1.
  + by rewrite h4 mulrN mulVf // mulr2n addrK.
  + by rewrite mulrN mulVf // addNr.
  + by rewrite h4 -[1 + 1]/(2%:R) mulVf // mul1r mulr2n subrr.
  + by rewrite -[1 + 1]/(2%:R) mulrN !mulVf // mul1r mulr2n addKr.
- by rewrite /fc_new_cov compute_covE; apply: psd_avg => x; exact: psd_outer.
- by rewrite /fc_new_cov compute_covE avg1 trmx1 mulmx1 unitmx1.
Qed.

(** With damping it is not so: a layer without bias, one input and one output, both covariances
    1 and both dampings 1.  With the input doubled, the gradient is 2 and the covariance 4; the
    natural gradients are 1/4 and 1/5, and twice the latter is not the former. *)
Example C123_damping_matters : forall (F : rcfType) (eigh : forall n, 'M[F]_n -> 'rV[F]_n * 'M[F]_n)
    (pow : F -> F -> F) (threshold : nat) (clip : F) (meth : posdef_inv_method),
  eigh_contract eigh -> power_laws pow -> clip <= 0 ->
  let regs := [:: RegMatpower (-1) 0] in
  let damp (i : nat) : F := 1 in
  let one : 'M[F]_1 := 1%:M in
  let two : 'M[F]_1 := 2%:R%:M in
  exists (inputs inputs' outputs : dense F (rows 1 false)) (w w' : params F 1 1 false),
    [/\ up_to_date eigh pow threshold clip meth regs damp (input_statistic false [:: one]) inputs,
        up_to_date eigh pow threshold clip meth regs damp (input_statistic false [:: new_input two 0 one]) inputs',
        up_to_date eigh pow threshold clip meth regs damp (fc_new_cov [:: one]) outputs,
        is_gradient (has_bias := false) [:: (one, one)] (one : 'cV_(rows 1 false * 1))
      & is_gradient (has_bias := false) [:: (new_input two 0 one, new_gradient 1%:M one)] (two : 'cV_(rows 1 false * 1))] /\
    [/\ kron_multiply_matpower pow (fun e => get_matpower inputs damp e 0%N)
          (fun e => get_matpower outputs damp e 0%N) 1 (one : params F 1 1 false) (-1) = Ok w,
        kron_multiply_matpower pow (fun e => get_matpower inputs' damp e 0%N)
          (fun e => get_matpower outputs damp e 0%N) 1 (two : params F 1 1 false) (-1) = Ok w'
      & ~ same_layer two 0 1%:M w w'].
Proof.
move=> F eigh pow th clip meth he hp hc regs damp one two.
have [sA uA] := up_to_date_exists eigh pow th clip meth regs damp (input_statistic false [:: one]).
have [sA' uA'] := up_to_date_exists eigh pow th clip meth regs damp (input_statistic false [:: new_input two 0 one]).
have [sG uG] := up_to_date_exists eigh pow th clip meth regs damp (fc_new_cov [:: one]).
have pA xs : psd (input_statistic false xs : 'M[F]_(rows 1 false)).
  by rewrite input_avg; apply: psd_avg => x; exact: psd_outer.
have pG : psd (fc_new_cov [:: one]) by exact: (pA [:: one]).
have iR : List.In (RegMatpower (-1) 0%N) regs by left.
have d0 : 0 < damp 0%N by exact: ltr01.
have [w [e1 h1]] := kron_power (m := 1) (n := 1) (b := false) he hp hc uA uG (pA _) pG d0 d0 ltr01
  (one : params F 1 1 false) (or_intror (conj iR iR)).
have [w' [e2 h2]] := kron_power (m := 1) (n := 1) (b := false) he hp hc uA' uG (pA _) pG d0 d0 ltr01
  (two : params F 1 1 false) (or_intror (conj iR iR)).
have v1 (X : 'M[F]_1) : (vec X : 'cV_(rows 1 false * 1)) = X.
  by apply/matrixP => i j; rewrite !ord1 -(vecE X); congr (vec X _ _); rewrite ord1.
have gr (x g : 'M[F]_1) : is_gradient (has_bias := false) [:: (x, g)] (x^T *m g : 'cV_(rows 1 false * 1)).
  by have := @gradient_vec F 1 1 false [:: (x, g)]; rewrite big_seq1 v1.
have entry (x : F) (v w0 : 'M[F]_1) : 
    (forall cv cw K, is_column (has_bias := false) (v : params F 1 1 false) cv ->
      is_column (has_bias := false) (w0 : params F 1 1 false) cw ->
      is_kron ((x * x)%:M + damp 0%N *: 1%:M : 'M[F]_(rows 1 false)) (fc_new_cov [:: one] + damp 0%N *: 1%:M) K ->
      exists M, is_matpower pow (1 *: K) (-1) M /\ cw = M *m cv) ->
    (x * x + 1) * 2%:R * w0 0 0 = v 0 0.
  move=> h; have [M [hM]] := h _ _ _ (@column_is_column F 1 1 false v) (@column_is_column F 1 1 false w0) (is_kron_model _ _).
  rewrite /= !v1 (matpower_invE hp hM) scale1r => e.
  have [hpd _] := matpower_pd hp hM; rewrite scale1r in hpd.
  have k := kronE ((x * x)%:M + damp 0%N *: 1%:M : 'M[F]_1) (fc_new_cov [:: one] + damp 0%N *: 1%:M) 0 0 0 0.
  rewrite [rm_pos _ _]ord1 in k; set K := kronecker_product _ _ in e hpd k.
  have {}e : (K : 'M[F]_1) *m w0 = v by rewrite e; exact: (mulKVmx (pd_unit hpd)).
  rewrite -e mxE big_ord_recl big_ord0 addr0; congr (_ * _); rewrite k.
  by rewrite /fc_new_cov compute_covE avg1 trmx1 mulmx1 !mxE /= !mulr1n mulr1.
exists sA, sA', sG, w, w'; split; split=> //.
- by have := gr one one; rewrite /one trmx1 mulmx1.
- have := gr (new_input two 0 one) (new_gradient 1%:M one).
  by rewrite /new_input /new_gradient /one mul1mx addr0 invmx1 trmx1 mulmx1 tr_scalar_mx mulmx1.
have i1 : input_statistic false [:: one] = (1 * 1)%:M by rewrite input_avg avg1 /= trmx1 mulmx1 mulr1.
have i2 : input_statistic false [:: new_input two 0 one] = (2%:R * 2%:R)%:M.
  by rewrite input_avg avg1 /= /new_input /one mul1mx addr0 tr_scalar_mx -scalar_mxM.
rewrite i1 in h1; rewrite i2 in h2; have {h1} a1 := entry _ _ _ h1; have {h2} a2 := entry _ _ _ h2.
move=> /(_ one); rewrite /= /one mul1mx addr0 mulmx1 mul1mx => /matrixP /(_ 0 0).
rewrite mxE big_ord_recl big_ord0 addr0 => e3.
move: a1 a2; rewrite -e3 !mxE /= !mulr1n mulr1; set x := w' 0 0 => a1 a2.
have e40 : 5%:R * 8%:R * x = 4%:R * 10%:R * x by rewrite -!natrM.
have a1' : 8%:R * x = 1.
  by rewrite -[RHS]a1 mulrA -[1 + 1]/(2%:R) -!natrM.
have a2' : 10%:R * x = 2%:R.
  by rewrite -[RHS]a2 -[2%:R * 2%:R + 1]/(2%:R * 2%:R + 1%:R) -!(natrM, natrD).
move: e40; rewrite -!mulrA a1' a2' mulr1 -natrM => /eqP.
by rewrite (eqr_nat F 5 8).
Qed.
