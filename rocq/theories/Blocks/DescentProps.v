(** C109: a preconditioned gradient is never an ascent direction, whatever the update schedule. *)
From mathcomp Require Import all_ssreflect all_algebra.
From Verif.Base Require Import Py.
From Verif.Blocks Require Import Model Spec DescentSpec MatProofs PsdProofs EigProofs FactorProofs
  ServeProofs BlockProofs StatProofs SuaProofs EndProofs DescentProofs.
Set Implicit Arguments.
Unset Strict Implicit.
Unset Printing Implicit Defensive.
Import GRing.Theory Num.Theory.
Local Open Scope ring_scope.

(** Kronecker-factored layers.  The two factors have histories of their own, in which covariance and
    inverse updates come in any order and number; the inverses that are served may be stale, or never
    computed.  The preconditioned gradient makes no obtuse angle with the gradient; and an acute one if the
    gradient is not zero and each factor either refreshed its inverses once or started with a positive
    definite matrix. *)
Theorem C109_kronecker_factored :
  forall (F : rcfType) (eigh : forall n, 'M[F]_n -> 'rV[F]_n * 'M[F]_n) (pow : F -> F -> F)
         (th : nat) (clip : F) (meth : posdef_inv_method) (m n : nat) (has_bias : bool)
         (initA : 'M[F]_(rows m has_bias)) (initG : 'M[F]_n) regsA regsG opsA opsG s0A s0G
         (histA : seq (event F (rows m has_bias))) (histG : seq (event F n))
         damping (e : F) idA idG (renorm : F) (v : params F m n has_bias),
    eigh_contract eigh -> power_laws pow -> clip <= 0 -> 0 < renorm -> e <> 1 ->
    finalize th initA regsA = Ok (opsA, s0A) -> finalize th initG regsG = Ok (opsG, s0G) ->
    List.In (RegMatpower e idA) regsA -> List.In (RegMatpower e idG) regsG ->
    psd initA -> psd initG -> legal_history idA histA -> legal_history idG histG ->
    exists w,
      kron_multiply_matpower pow
        (fun e' => get_matpower (run eigh pow clip meth opsA s0A histA) damping e' idA)
        (fun e' => get_matpower (run eigh pow clip meth opsG s0G histG) damping e' idG)
        renorm v e = Ok w /\
      forall x, is_inner v w x ->
        0 <= x /\
        (nonzero v -> pd initA \/ each_ran (size opsA) histA ->
         pd initG \/ each_ran (size opsG) histG -> 0 < x).
Proof.
move=> F eigh pow th clip meth m n b iA iG rA rG oA oG sA sG hA hG dm e dA dG rn v.
move=> eP pP c0 r0 ne fA fG inA inG pA pG lA lG.
have [P [eP1 [P1 P2]]] := served_signs pP eP meth c0 fA dm inA ne lA pA.
have [Q [eQ1 [Q1 Q2]]] := served_signs pP eP meth c0 fG dm inG ne lG pG.
pose left e' := get_matpower (run eigh pow clip meth oA sA hA) dm e' dA.
pose right e' := get_matpower (run eigh pow clip meth oG sG hG) dm e' dG.
have [w [ew h]] := @kron_signs F pow pP m n b _ _ left right rn v e eP1 eQ1 r0 P1 Q1.
exists w; split=> // x /h [h1 h2]; split=> // nv iA' iG'.
by apply: h2 => //; [exact: P2|exact: Q2].
Qed.
Print Assumptions C109_kronecker_factored.

(** Full-matrix layers. *)
Theorem C109_full_matrix :
  forall (F : rcfType) (eigh : forall n, 'M[F]_n -> 'rV[F]_n * 'M[F]_n) (pow : F -> F -> F)
         (th : nat) (clip : F) (meth : posdef_inv_method) (m n : nat) (has_bias : bool)
         (init : 'M[F]_(rows m has_bias * n)) regs ops s0 hist damping (e : F) id
         (v : params F m n has_bias),
    eigh_contract eigh -> power_laws pow -> clip <= 0 -> e <> 1 ->
    finalize th init regs = Ok (ops, s0) -> List.In (RegMatpower e id) regs ->
    psd init -> legal_history id hist ->
    exists w,
      full_multiply (get_matpower (run eigh pow clip meth ops s0 hist) damping e id) v false = Ok w /\
      forall x, is_inner v w x ->
        0 <= x /\ (nonzero v -> pd init \/ each_ran (size ops) hist -> 0 < x).
Proof.
move=> F eigh pow th clip meth m n b i r o s hs dm e d v eP pP c0 ne fi inr pi lh.
have [P [-> [P1 P2]]] := served_signs pP eP meth c0 fi dm inr ne lh pi.
have [w [ew h]] := @full_signs F m n b (FullMatrix P) v P1.
by exists w; split=> // x /h [h1 h2]; split=> // nv hi; apply: h2 => //; exact: P2.
Qed.
Print Assumptions C109_full_matrix.

(** Layers with a diagonal input factor (embedding tables) and a dense output factor. *)
Theorem C109_diagonal_inputs :
  forall (F : rcfType) (eigh : forall n, 'M[F]_n -> 'rV[F]_n * 'M[F]_n) (pow : F -> F -> F)
         (th : nat) (clip : F) (meth : posdef_inv_method) (m n : nat) (has_bias : bool)
         (d : 'rV[F]_(rows m has_bias)) (dampingA : F) (initG : 'M[F]_n) regsG opsG s0G histG
         damping (e : F) idG (renorm : F) (v : params F m n has_bias),
    eigh_contract eigh -> power_laws pow -> clip <= 0 -> 0 < renorm -> e <> 1 ->
    (forall i, 0 <= d 0 i) -> 0 < dampingA ->
    finalize th initG regsG = Ok (opsG, s0G) -> List.In (RegMatpower e idG) regsG ->
    psd initG -> legal_history idG histG ->
    exists w,
      kron_multiply_matpower pow
        (fun e' => Ok (diag_get_matpower pow d e' dampingA))
        (fun e' => get_matpower (run eigh pow clip meth opsG s0G histG) damping e' idG)
        renorm v e = Ok w /\
      forall x, is_inner v w x ->
        0 <= x /\ (nonzero v -> pd initG \/ each_ran (size opsG) histG -> 0 < x).
Proof.
move=> F eigh pow th clip meth m n b d dA iG rG oG sG hG dm e dG rn v.
move=> eP pP c0 r0 ne d0 dA0 fG inG pG lG.
have [Q [eQ1 [Q1 Q2]]] := served_signs pP eP meth c0 fG dm inG ne lG pG.
have pd0 := diag_power_pd pP e d0 dA0.
pose left e' : res (linop F (rows m b)) := Ok (diag_get_matpower pow d e' dA).
pose right e' := get_matpower (run eigh pow clip meth oG sG hG) dm e' dG.
have [w [ew h]] := @kron_signs F pow pP m n b _ _ left right rn v e erefl eQ1 r0 (pd_psd pd0) Q1.
by exists w; split=> // x /h [h1 h2]; split=> // nv hi; apply: h2 => //; exact: Q2.
Qed.
Print Assumptions C109_diagonal_inputs.

(** Diagonal layers. *)
Theorem C109_diagonal :
  forall (F : rcfType) (pow : F -> F -> F) (m n : nat) (has_bias : bool)
         (d : 'rV[F]_(rows m has_bias * n)) (damping e : F) (v : params F m n has_bias),
    power_laws pow -> (forall i, 0 <= d 0 i) -> 0 < damping ->
    forall transpose x,
      is_inner v (diagonal_multiply (diag_get_matpower pow d e damping) v transpose) x ->
      0 <= x /\ (nonzero v -> 0 < x).
Proof.
move=> F pow m n b d dm e v pP d0 dm0; have pd0 := diag_power_pd pP e d0 dm0.
have [w [ew h]] := @full_signs F m n b _ v (pd_psd pd0).
by move=> tr x; move: ew; rewrite /= => -[ew]; rewrite /diagonal_multiply ew => /h [h1 h2]; split=> // nv; apply: h2.
Qed.
Print Assumptions C109_diagonal.

(** The hypotheses can be met: factors that start at zero, get a covariance, refresh their inverses and
    get another covariance, so that what they serve is stale. *)
Example C109_hypotheses_met : forall F : rcfType,
  exists ops s0, [/\ eigh_contract (@an_eigh F), power_laws (@a_pow F),
    finalize 4 (0 : 'M[F]_2) [:: RegMatpower (-1) 0] = Ok (ops, s0),
    psd (0 : 'M[F]_2) & (-1 : F) <> 1] /\
    let hist := NewCov (const_mx 1) :: [seq RunOp 2 k (fun=> 2^-1 : F) | k <- iota 0 (size ops)]
                ++ [:: NewCov 1%:M] in
    legal_history 0 hist /\ each_ran (size ops) hist.
Proof.
move=> F; have [ops [s0 h]] := finalize_total 4 (0 : 'M[F]_2) [:: RegMatpower (-1) 0].
exists ops, s0; split; first split=> //.
- exact: an_eigh_contract.
- exact: a_pow_laws.
- exact: psd0.
- move=> e; have : (1 : F) + 1 = 0 by rewrite -{1}e addNr.
  by move/eqP; rewrite -(natrD _ 1 1) pnatr_eq0.
- split; first split.
  + move=> c [[<-]|]; first exact: psd_const.
    move/(@List.in_app_or _ _ _ _); case=> [|[[<-]|//]]; last exact: psd1.
    by elim: (iota _ _) => [|k l IH] //= -[//|/IH].
  + move=> k d [//|] /(@List.in_app_or _ _ _ _); case=> [|[//|//]].
    by elim: (iota _ _) => [|j l IH] //= -[[_ <-]|/IH //]; rewrite invr_gt0 ltr0n.
  + move=> k hk; exists (fun=> 2^-1); right; apply/List.in_or_app; left.
    have : k \in iota 0 (size ops) by rewrite mem_iota.
    elim: (iota _ _) => [|j l IH] //=; rewrite inE => /orP[/eqP ->|/IH]; first by left.
    by right.
Qed.
