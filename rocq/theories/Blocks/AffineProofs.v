(** Undamped Kronecker-factored blocks do not depend on the coordinates: proofs for C123. *)
From mathcomp Require Import all_ssreflect all_algebra.
From Verif.Base Require Import Py.
From Verif.Blocks Require Import Model Spec MatProofs PsdProofs EigProofs FactorProofs ServeProofs BlockProofs
  StatProofs SuaProofs EndProofs RotateProofs ExactSpec ExactProofs AffineSpec.
Set Implicit Arguments.
Unset Strict Implicit.
Unset Printing Implicit Defensive.
Import GRing.Theory Num.Theory Order.TTheory.
Local Open Scope ring_scope.

Section Affine.
Variable F : rcfType.
Variable eigh : forall n, 'M[F]_n -> 'rV[F]_n * 'M[F]_n.
Variable pow : F -> F -> F.
Hypothesis eighP : eigh_contract eigh.
Hypothesis powP : power_laws pow.

(** * What is served when the covariance with its damping is positive definite, in particular
      without damping. *)
Lemma posdef_invE_pd meth n (M : 'M[F]_n) a : pd (M + a *: 1%:M) ->
  posdef_inv eigh meth M a = invmx (M + a *: 1%:M).
Proof.
move=> hp; case: meth => //=.
  exact: cholesky_solve_inv.
have := eighP (proj1 hp); case: (eigh _) => e V /= hd.
have pos := pd_eigval hp hd; case: (hd) => hV hMd.
rewrite eig_recomposeE; apply: invmx_unique; rewrite {1}hMd.
rewrite !mulmxA -[_ *m V^T *m V]mulmxA orth_unit // mulmx1 -[V *m _ *m _]mulmxA.
by rewrite diag_inv ?mulmx1 // => i; rewrite gt_eqF.
Qed.
Lemma eig_power_pd (clip : F) n (M : 'M[F]_n) a e : psd M -> pd (M + a *: 1%:M) -> clip <= 0 ->
  is_matpower pow (M + a *: 1%:M) e
    (eig_recompose (eigh M).2 (\row_j pow (Num.max ((eigh M).1 0 j) clip + a) e)).
Proof.
move=> hM hp c0; have hd := eighP (proj1 hM); have pos := psd_eigval hM hd.
have hs := diagonalises_shift a hd; have pos' := pd_eigval hp hs.
exists (eigh M).2, (\row_j ((eigh M).1 0 j + a)).
have [hV hMd] := hs; split=> //.
rewrite eig_recomposeE; congr (_ *m diag_mx _ *m _); apply/rowP => j; rewrite !mxE.
by rewrite max_l // (le_trans c0).
Qed.

Lemma served_matpower_pd n th clip meth (init : 'M[F]_n) regs ops s0 ex id :
  clip <= 0 -> finalize th init regs = Ok (ops, s0) ->
  List.In (RegMatpower ex id) regs -> ex <> 1 ->
  exists k, (k < size ops)%N /\
   (forall pre damp post, ~ runs k post -> psd (cov_after 0 pre) -> pd (cov_after 0 pre + damp id *: 1%:M) ->
     forall damp', exists P,
       get_matpower (run eigh pow clip meth ops s0 (pre ++ RunOp n k damp :: post)) damp' ex id = Ok (FullMatrix P) /\
       is_matpower pow (cov_after 0 pre + damp id *: 1%:M) ex P).
Proof.
move=> clip0 fin hr /eqP ne; have hk : has (is_mp (ex, id)) regs by apply: In_has hr _; rewrite /= ne eqxx.
have [h0 [k [hk1 hk2 hk3]]] := mp_covers eigh pow clip meth fin hk; exists k; split=> //.
have := @served_generic F eigh pow n _ (@d_matpower F n) (@wr_mp F eigh pow n clip meth) clip meth
  (fun damp s a key => ra_mp eigh pow clip meth damp s a key) (fun s c => erefl) (@WmS F eigh pow n clip meth) ops s0 k (ex, id) init
  (fun c damp x => psd c -> pd (c + damp id *: 1%:M) -> is_matpower pow (c + damp id *: 1%:M) ex x) h0 hk2 hk3.
rewrite (init_cov fin) => -[|h1 h2].
  move=> c damp [e i|i|//|//] x /=; case: eqP => // -[-> ->] [<-] hc hd.
  - exact: eig_power_pd.
  - by rewrite posdef_invE_pd //; apply: matpower_inv.
move=> pre damp post hp hc hd damp'; rewrite /get_matpower ne.
by have [P [-> hP]] := h1 pre damp post hp; exists P; split=> //; apply: hP.
Qed.
Lemma current_inverse_pd n th clip meth regs damp (C : 'M[F]_n) s id : clip <= 0 ->
  up_to_date eigh pow th clip meth regs damp C s ->
  List.In (RegMatpower (-1) id) regs -> psd C -> pd (C + damp id *: 1%:M) ->
  get_matpower s damp (-1) id = Ok (FullMatrix (invmx (C + damp id *: 1%:M))).
Proof.
move=> clip0 [init [ops [s0 [l [hf hCl ->]]]]] hr hC hd.
have ne : -1 <> 1 :> F by apply/eqP; rewrite -subr_eq0 -opprD oppr_eq0 -[1 + 1]/(2%:R) pnatr_eq0.
have [k [hk h1]] := served_matpower_pd meth clip0 hf hr ne.
have [pre [post [-> hp hc]]] := refresh_split l damp hk.
have := h1 pre damp post hp; rewrite hc hCl => /(_ hC hd damp) [P [-> hP]].
by rewrite (matpower_invE powP hP).
Qed.

Lemma psd_unit_pd n (M : 'M[F]_n) : psd M -> M \in unitmx -> pd M.
Proof.
move=> hM; have [[d V] hd] := spectral (proj1 hM); have /= pos := psd_eigval hM hd.
case: (hd) => /= hV hMd uM.
have hp : is_matpower pow M 1 (V *m diag_mx (\row_i pow (d 0 i) 1) *m V^T).
  exists V, d; split=> // i; rewrite lt_neqAle pos andbT eq_sym.
  move: uM; rewrite hMd !unitmx_mul => /andP [/andP [_ h] _].
  by move: h; rewrite unitmxE det_diag unitfE => /prodf_neq0 /(_ i isT).
by case: (matpower_pd powP hp).
Qed.

Lemma invmx_mul3 n (X A Y : 'M[F]_n) : X \in unitmx -> A \in unitmx -> Y \in unitmx ->
  invmx (X *m A *m Y) = invmx Y *m invmx A *m invmx X.
Proof.
move=> hX hA hY; apply/esym/invmx_unique.
rewrite !mulmxA -[_ *m Y *m _]mulmxA mulmxV // mulmx1.
by rewrite -[_ *m A *m _]mulmxA mulmxV // mulmx1 mulmxV.
Qed.

Lemma no_damping pt power m n (A : linop F m) (G : linop F n) rep a g :
  setup_damping pow pt power A G 0 rep = Ok (a, g) -> a = 0 /\ g = 0.
Proof.
have z : Num.sqrt (match rep with Some r => normalize_damping pow power 0 r | None => 0 end) = 0 :> F.
  by case: rep => [r|]; rewrite /normalize_damping ?mul0r ?if_same sqrtr0.
rewrite /setup_damping z /compute_pi_adjusted_damping; case: pt; last by case=> <- <-.
by case: (compute_pi_tracenorm _ _) => // x [<- <-]; rewrite !mul0r.
Qed.

(** * Changes of coordinates *)
Section Layer.
Variables (m n : nat) (b : bool).
Implicit Types (Q : 'M[F]_m) (c : 'rV[F]_m) (N : 'M[F]_n) (v w : params F m n b).

Definition change Q c : 'M[F]_(rows m b) :=
  match b return 'M[F]_(rows m b) with
  | true => block_mx Q 0 c 1%:M
  | false => Q
  end.
Lemma ext_change Q c x : change_of_inputs b Q c -> ext b (new_input Q c x) = ext b x *m change Q c.
Proof.
rewrite /new_input /change => -[_ hc]; case: b hc => /= hc; last by rewrite hc // addr0.
by rewrite /append_homog mul_row_block !mulmx0 mul1mx add0r mulmx1.
Qed.
Lemma change_unit Q c : change_of_inputs b Q c -> change Q c \in unitmx.
Proof.
rewrite /change => -[hQ _]; case: b => //=.
by rewrite unitmxE det_lblock det1 mulr1 -unitmxE.
Qed.
Lemma same_layerP Q c N v v' : change_of_inputs b Q c ->
  change Q c *m layer_params_to_mat2d v' = layer_params_to_mat2d v *m N -> same_layer Q c N v v'.
Proof.
move=> hc h x; rewrite !fc_outputE -/(new_input Q c x) (ext_change x hc) -!mulmxA h.
by rewrite mulmxA.
Qed.
Lemma ext_inj (X Y : 'M[F]_(rows m b, n)) : (forall x, ext b x *m X = ext b x *m Y) -> X = Y.
Proof.
have rows0 p (U V : 'M[F]_(p, n)) : (forall x : 'rV_p, x *m U = x *m V) -> U = V.
  by move=> h; apply/row_matrixP => i; rewrite !rowE.
case: b X Y => /= X Y h; last exact: rows0.
have e x : x *m usubmx X + dsubmx X = x *m usubmx Y + dsubmx Y.
  by have := h x; rewrite -{1}[X]vsubmxK -{1}[Y]vsubmxK !mul_row_col !mul1mx.
have d : dsubmx X = dsubmx Y by have := e 0; rewrite !mul0mx !add0r.
rewrite -[X]vsubmxK -[Y]vsubmxK d; congr col_mx; apply: rows0 => x.
by have := e x; rewrite d => /addIr.
Qed.
Lemma same_layer_mat2d Q c N v v' : change_of_inputs b Q c -> same_layer Q c N v v' ->
  change Q c *m layer_params_to_mat2d v' = layer_params_to_mat2d v *m N.
Proof.
move=> hc h.
have e x : ext b x *m (change Q c *m layer_params_to_mat2d v') = ext b x *m (layer_params_to_mat2d v *m N).
  by have := h x; rewrite !fc_outputE -/(new_input Q c x) (ext_change x hc) !mulmxA.
exact: ext_inj e.
Qed.
Lemma same_exists Q c N v : change_of_inputs b Q c -> exists v', same_layer Q c N v v'.
Proof.
move=> hc; exists (mat2d_to_layer_params (invmx (change Q c) *m layer_params_to_mat2d v *m N)).
apply: same_layerP => //; rewrite layer_of_mat2d -mulmxA mulKVmx //; exact: change_unit.
Qed.
Lemma same_unique Q c N v v' w : change_of_inputs b Q c -> same_layer Q c N v v' -> same_layer Q c N v w -> v' = w.
Proof.
move=> hc h1 h2; apply: mat2d_inj; apply: (can_inj (mulKmx (change_unit hc))).
by rewrite (same_layer_mat2d hc h1) (same_layer_mat2d hc h2).
Qed.
Lemma updated_mat2d lr v w :
  layer_params_to_mat2d (updated lr v w) = layer_params_to_mat2d v - lr *: layer_params_to_mat2d w.
Proof.
rewrite /updated; case: b v w => //= v w.
by rewrite scale_col_mx opp_col_mx add_col_mx.
Qed.
Lemma same_updated Q c N lr v v' w w' : same_layer Q c N v v' -> same_layer Q c N w w' ->
  same_layer Q c N (updated lr v w) (updated lr v' w').
Proof.
move=> hv hw x; move: (hv x) (hw x); rewrite !fc_outputE !updated_mat2d => e1 e2.
by rewrite !mulmxDr !mulmxN -!scalemxAr e1 e2 mulmxDl mulNmx -scalemxAl.
Qed.

Lemma input_changed Q c xs : change_of_inputs b Q c ->
  input_statistic b [seq new_input Q c x | x <- xs] = sides (change Q c)^T (change Q c) (input_statistic b xs).
Proof.
move=> hc; rewrite !input_avg /avg size_map big_map (linearZZ (sides _ _)) (linear_sum (sides _ _)) /=; congr (_ *: _).
by apply: eq_bigr => x _; rewrite (ext_change x hc) trmx_mul !mulmxA.
Qed.
Lemma output_changed N gs :
  fc_new_cov [seq new_gradient N g | g <- gs] = sides (invmx N) (invmx N)^T (fc_new_cov gs).
Proof. exact: fc_rotated. Qed.

Lemma gradient_changed Q c N uses (V : 'cV[F]_(rows m b * n)) V' : change_of_inputs b Q c ->
  is_gradient uses V -> is_gradient [seq (new_input Q c l.1, new_gradient N l.2) | l <- uses] V' ->
  V' = kronecker_product (change Q c)^T (invmx N) *m V.
Proof.
move=> hc /gradient_unique -> /gradient_unique ->; rewrite vec_mul big_map mulmx_sumr mulmx_suml.
by congr vec; apply: eq_bigr => l _ /=; rewrite (ext_change _ hc) trmx_mul /new_gradient !mulmxA.
Qed.

Lemma pairing_same Q c N uses u u' (V : 'cV[F]_(rows m b * n)) V' : change_of_inputs b Q c -> N \in unitmx ->
  same_layer Q c N u u' ->
  is_gradient uses V -> is_gradient [seq (new_input Q c l.1, new_gradient N l.2) | l <- uses] V' ->
  V'^T *m tensors_to_column u' = V^T *m tensors_to_column u.
Proof.
move=> hc hN hu hV hV'; rewrite (gradient_changed hc hV hV') trmx_mul kron_tr trmxK -mulmxA; congr (_ *m _).
rewrite !mat2d_col vec_mul; congr vec.
by rewrite (same_layer_mat2d hc hu) trmxK mulmxK.
Qed.

(** The undamped inverse. *)
Lemma direction_changed Q c N th clip meth regsA regsG (dampA dampG dampA' dampG' : nat -> F)
    (A A' : 'M[F]_(rows m b)) (G G' : 'M[F]_n) sA sA' sG sG' ia ig renorm uses v v' cv cv' :
  clip <= 0 -> change_of_inputs b Q c -> N \in unitmx -> 0 < renorm ->
  psd A -> A \in unitmx -> psd G -> G \in unitmx ->
  A' = (change Q c)^T *m A *m change Q c -> G' = invmx N *m G *m (invmx N)^T ->
  dampA ia = 0 -> dampG ig = 0 -> dampA' ia = 0 -> dampG' ig = 0 ->
  up_to_date eigh pow th clip meth regsA dampA A sA -> up_to_date eigh pow th clip meth regsG dampG G sG ->
  up_to_date eigh pow th clip meth regsA dampA' A' sA' -> up_to_date eigh pow th clip meth regsG dampG' G' sG' ->
  List.In (RegMatpower (-1) ia) regsA -> List.In (RegMatpower (-1) ig) regsG ->
  is_column v cv -> is_column v' cv' -> is_gradient uses cv ->
  is_gradient [seq (new_input Q c l.1, new_gradient N l.2) | l <- uses] cv' ->
  exists w w',
    kron_multiply_matpower pow (fun e => get_matpower sA dampA e ia)
      (fun e => get_matpower sG dampG e ig) renorm v (-1) = Ok w /\
    kron_multiply_matpower pow (fun e => get_matpower sA' dampA' e ia)
      (fun e => get_matpower sG' dampG' e ig) renorm v' (-1) = Ok w' /\ same_layer Q c N w w'.
Proof.
move=> clip0 hc hN r0 hA uA hG uG eA' eG' dA dG dA' dG' tA tG tA' tG' rA rG cV cV' gV gV'.
set T := change Q c in eA'; have hT : T \in unitmx by exact: change_unit.
have pdP k (M : 'M[F]_k) : psd M -> M \in unitmx -> pd M by exact: psd_unit_pd.
have pA : pd A by exact: pdP.
have pG : pd G by exact: pdP.
have pA' : pd A'.
  apply: pdP; rewrite eA'; last by rewrite !unitmx_mul unitmx_tr hT uA.
  by have := psd_rotated T^T hA; rewrite trmxK.
have pG' : pd G'.
  apply: pdP; rewrite eG'; last by rewrite !unitmx_mul unitmx_tr unitmx_inv hN uG.
  exact: psd_rotated.
have z k (M : 'M[F]_k) d : d = 0 -> M + d *: 1%:M = M by move=> ->; rewrite scale0r addr0.
have gA := current_inverse_pd clip0 tA rA hA; rewrite z // in gA; move: (gA pA) => {}gA.
have gG := current_inverse_pd clip0 tG rG hG; rewrite z // in gG; move: (gG pG) => {}gG.
have gA' := current_inverse_pd clip0 tA' rA (pd_psd pA'); rewrite z // in gA'; move: (gA' pA') => {}gA'.
have gG' := current_inverse_pd clip0 tG' rG (pd_psd pG'); rewrite z // in gG'; move: (gG' pG') => {}gG'.
have [w [e1 h1]] := kron_block_power (b := b) powP v (left := fun e => get_matpower sA dampA e ia)
  (right := fun e => get_matpower sG dampG e ig) gA gG r0 (matpower_inv powP pA) (matpower_inv powP pG).
have [w' [e2 h2]] := kron_block_power (b := b) powP v' (left := fun e => get_matpower sA' dampA' e ia)
  (right := fun e => get_matpower sG' dampG' e ig) gA' gG' r0 (matpower_inv powP pA') (matpower_inv powP pG').
exists w, w'; split=> //; split=> //; apply: same_layerP => //.
have kinv k l (X : 'M[F]_k) (Y : 'M[F]_l) : X \in unitmx -> Y \in unitmx ->
    invmx (renorm *: kronecker_product X Y) = renorm^-1 *: kronecker_product (invmx X) (invmx Y).
  move=> hX hY; apply/esym/invmx_unique; rewrite -scalemxAl -scalemxAr scalerA kron_mul !mulmxV // kron1.
  by rewrite mulfV ?scale1r // gt_eqF.
have [M [hM cw]] := h1 _ _ _ cV (column_is_column w) (is_kron_model _ _).
have [M' [hM' cw']] := h2 _ _ _ cV' (column_is_column w') (is_kron_model _ _).
rewrite (matpower_invE powP hM) kinv // in cw; rewrite (matpower_invE powP hM') kinv ?pd_unit // in cw'.
rewrite (gradient_changed hc gV gV') in cw'.
apply: (can_inj (@vecK _ _ _)).
have k2 (X : 'M[F]_(rows m b)) (Y : 'M[F]_n) (Z : 'M[F]_(rows m b, n)) :
  vec (X *m Z *m Y) = kronecker_product X Y^T *m vec Z by rewrite vec_mul trmxK.
rewrite -[_ *m layer_params_to_mat2d w']mulmx1 k2 -[_ *m N]mul1mx mulmxA k2 -!mat2d_col cw cw'.
rewrite -!scalemxAl -!scalemxAr !mulmxA !kron_mul; congr (_ *: (kronecker_product _ _ *m _)).
- rewrite eA' invmx_mul3 ?unitmx_tr // !mulmxA mulmxV // -[_ *m _ *m T^T]mulmxA mulVmx ?unitmx_tr //.
  by rewrite mulmx1.
- rewrite eG' invmx_mul3 ?unitmx_tr ?unitmx_inv // trmx1 mul1mx trmx_inv !invmxK.
  by rewrite mulmxK.
Qed.
End Layer.
End Affine.
