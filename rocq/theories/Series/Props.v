(** Property theorems C77 - C82: layers with several uses.  As in Blocks/Props.v, [F] is any real
    closed field, and [eigh], [svd] and [pow] stand for tf.self_adjoint_eig, tf.svd and tf.pow,
    which are only assumed to do what those promise (Spec). *)
From Verif.Base Require Import Py.
From mathcomp Require Import all_ssreflect all_algebra.
From Coq Require List.
From Coq Require Import Permutation.
From Verif.Blocks Require Import Model Spec MatProofs PsdProofs EigProofs FactorProofs ServeProofs BlockProofs
  StatProofs EndProofs.
From Verif.Series Require Import Model Spec QuantProofs Opt1Proofs Opt2Proofs SvdProofs CovProofs DataProofs
  EndProofs WitnessProofs UseProofs.
Set Implicit Arguments.
Unset Strict Implicit.
Unset Printing Implicit Defensive.
Import GRing.Theory Num.Theory Order.TTheory.
Local Open Scope ring_scope.

(* ======================================================================= *)
(** ** C77 *)

(** Data given use by use, towers concatenated: one tensor for the inputs and one for each
    source of gradients.  It holds exactly the rows that were given, the pairs formed from it are
    exactly the pairs of the same example at successive uses, and its batch size is the
    number of examples. *)
Theorem C77_concatenated_data :
  forall (X Y : Type) (T : nat) (num_uses : option nat) (inputs : seq (seq (seq X)))
         (sources : seq (seq (seq (seq Y)))),
    (0 < T)%N -> regular T inputs -> (0 < size sources)%N ->
    (forall s, List.In s sources -> regular T s) -> num_uses = None \/ num_uses = Some T ->
    let is_merged Z (towers : seq (seq (seq Z))) (ts : seq (tensor Z)) :=
      exists rows, ts = [:: Rank2 rows] /\
        [/\ Permutation rows (all_rows towers), Permutation (formed T rows) (all_pairs towers)
          & multi_partial_batch_size T (Rank2 rows) = sumn [seq size (nth [::] t 0) | t <- towers]] in
    exists ts gs, process_data Concat num_uses (ByUse inputs) (GByUse sources) = Ok (ts, gs, T) /\
      is_merged X inputs ts /\ List.Forall2 (is_merged Y) sources gs.
Proof.
move=> X Y T nu inputs sources T0 hr hs0 hs hnu is_merged.
have merged Z (towers : seq (seq (seq Z))) : regular T towers ->
    is_merged Z towers [:: Rank2 (flatten (blocks towers T))].
  move=> h; eexists; split; first by []; split.
  - exact: blocks_perm (regular_sizes h).
  - exact: formed_concat.
  - exact: batch_concat.
have h1 := merge_concat T0 (proj1 hr) (regular_sizes hr).
have h2 := merge_all_concat T0 hs.
eexists; eexists; split; first exact: (process_regular hr hs0 hs hnu h1 h2).
split; first exact: merged.
by elim: sources hs {hs0 h2} => [|s ss IH] h; constructor; [apply: merged; apply: h; left|apply: IH => t ht; apply: h; right].
Qed.
Print Assumptions C77_concatenated_data.

(** Towers kept apart: the same for each tower. *)
Theorem C77_separate_data :
  forall (X Y : Type) (T : nat) (num_uses : option nat) (inputs : seq (seq (seq X)))
         (sources : seq (seq (seq (seq Y)))),
    (0 < T)%N -> regular T inputs -> (0 < size sources)%N ->
    (forall s, List.In s sources -> regular T s) -> num_uses = None \/ num_uses = Some T ->
    let is_merged Z (uses : seq (seq Z)) (t : tensor Z) :=
      [/\ t = Rank2 (flatten uses), formed T (flatten uses) = successive uses
        & multi_partial_batch_size T t = size (nth [::] uses 0)] in
    exists ts gs, process_data Separate num_uses (ByUse inputs) (GByUse sources) = Ok (ts, gs, T) /\
      List.Forall2 (is_merged X) inputs ts /\ List.Forall2 (List.Forall2 (is_merged Y)) sources gs.
Proof.
move=> X Y T nu inputs sources T0 hr hs0 hs hnu is_merged.
have merged Z (towers : seq (seq (seq Z))) : regular T towers ->
    List.Forall2 (is_merged Z) towers [seq Rank2 (flatten t) | t <- towers].
  move=> h; have : forall t, List.In t towers -> is_merged Z t (Rank2 (flatten t)).
    by move=> t ht; split; [|exact: formed_separate h T0 ht|exact: batch_separate h T0 ht].
  elim: towers {h} => [|t l IH] h; constructor; [apply: h; left|apply: IH => u hu; apply: h; right] => //.
have h1 := merge_separate T0 (regular_sizes hr).
have h2 := merge_all_separate T0 hs.
eexists; eexists; split; first exact: (process_regular hr hs0 hs hnu h1 h2).
split; first exact: merged.
by elim: sources hs {hs0 h2} => [|s ss IH] h; constructor; [apply: merged; apply: h; left|apply: IH => t ht; apply: h; right].
Qed.
Print Assumptions C77_separate_data.

(** So the statistics of the factors are the second moment of all rows, and the mean product
    of each row with the one before (counted over all rows, the first ones included). *)
Theorem C77_statistics :
  forall (F : rcfType) (n T : nat) (towers : seq (seq (seq 'rV[F]_n))),
    (0 < T)%N -> regular T towers ->
    (exists rows, merge_towers Concat towers = Ok [:: Rank2 rows] /\
      multi_new_cov (Rank2 rows) = compute_cov (all_rows towers) /\
      multi_new_cov_dt1 T (Rank2 rows) =
        Ok ((size (all_rows towers))%:R^-1 *: \sum_(p <- all_pairs towers) p.1^T *m p.2)) /\
    exists ts, merge_towers Separate towers = Ok ts /\
      List.Forall2 (fun uses t => multi_new_cov t = compute_cov (flatten uses) /\
        multi_new_cov_dt1 T t =
          Ok ((size (flatten uses))%:R^-1 *: \sum_(p <- successive uses) p.1^T *m p.2)) towers ts.
Proof.
move=> F n T towers T0 hr; split.
  eexists; split; first exact: (merge_concat T0 (proj1 hr) (regular_sizes hr)).
  by apply: concat_stats => //; [exact: blocks_perm (regular_sizes hr)|exact: formed_concat].
eexists; split; first exact: (merge_separate T0 (regular_sizes hr)).
have : forall t, List.In t towers -> multi_new_cov_dt1 T (Rank2 (flatten t)) =
    Ok ((size (flatten t))%:R^-1 *: \sum_(p <- successive t) p.1^T *m p.2).
  by move=> t ht; exact: (separate_stats hr T0 ht).
elim: towers {hr} => [|t l IH] h; constructor; last by apply: IH => u hu; apply: h; right.
by split=> //; apply: h; left.
Qed.
Print Assumptions C77_statistics.

(** Whatever is accepted has one number of uses: that of every tower and every source that is
    given use by use, and the one that was specified.  Data with the uses folded into the
    tensors is taken as it is, and only with a specified number. *)
Theorem C77_accepted_data :
  forall (X Y : Type) (strategy : tower_strategy) (num_uses : option nat) (inputs : side X)
         (g : grads Y) ts gs k,
    process_data strategy num_uses inputs g = Ok (ts, gs, k) ->
    [/\ num_uses = None \/ num_uses = Some k,
        forall towers, inputs = ByUse towers ->
          strategy <> OtherStrategy /\ forall t, List.In t towers -> size t = k,
        forall sources, g = GByUse sources ->
          strategy <> OtherStrategy /\ forall s t, List.In s sources -> List.In t s -> size t = k
      & forall ts' gs', inputs = ByTower ts' -> g = GByTower gs' -> ts = ts' /\ gs = gs' /\ num_uses = Some k].
Proof. exact: process_counts. Qed.
Print Assumptions C77_accepted_data.

(** Two towers with three uses of two examples and of one. *)
Example C77_hypotheses_met :
  let towers := [:: [:: [:: 1; 2]; [:: 3; 4]; [:: 5; 6]]; [:: [:: 7]; [:: 8]; [:: 9]]]%N in
  regular 3 towers /\
  all_pairs towers = [:: (3, 1); (4, 2); (5, 3); (6, 4); (8, 7); (9, 8)]%N /\
  process_data Concat None (ByUse towers) (GByUse [:: towers]) =
    Ok ([:: Rank2 [:: 1; 2; 7; 3; 4; 8; 5; 6; 9]], [:: [:: Rank2 [:: 1; 2; 7; 3; 4; 8; 5; 6; 9]]], 3)%N.
Proof.
split; [split=> // t /= [<-|[<-|[]]]; split=> //; [exists 2%N|exists 1%N]; split=> // u|by split].
- by move=> [<-|[<-|[<-|[]]]].
- by move=> [<-|[<-|[<-|[]]]].
Qed.

(* ======================================================================= *)
(** ** C78 *)

(** "The inverse for a series block of option 1 is the inverse of the covariance of the sum of
    the gradients over the uses, for the process with the (symmetrised) statistics of the
    factors" is false: the statistics [3, -2] for the inputs and [3, 2] for the outputs, with damping
    [1] and two uses. *)
Theorem C78_option1_is_sequence_covariance_refuted :
  forall (F : rcfType) eigh svd (pow : F -> F -> F) meth,
    eigh_contract eigh -> svd_contract svd -> power_laws pow ->
    let A0 : 'M[F]_1 := 3%:R%:M in let A1 : 'M[F]_1 := (- 2%:R)%:M in
    let G0 : 'M[F]_1 := 3%:R%:M in let G1 : 'M[F]_1 := 2%:R%:M in
    let serve (C0 C1 : 'M[F]_1) := series_update eigh svd pow meth 0 [:: 0%N] [::] (fun=> 1) C0 C1 in
    [/\ psd A0, psd G0, shift_bounded A0 A1 & shift_bounded G0 G1] /\
    exists (w : params F 1 1 false) cv cw K0 K1,
      [/\ series_multiply_matpower Option1 2 (serve A0 A1 : series_quants F (rows 1 false)) (serve G0 G1) 0 0
            (1%:M : params F 1 1 false) (-1) = Ok w,
          is_column (1%:M : params F 1 1 false) cv, is_column w cw,
          is_kron (A0 + 1 *: 1%:M : 'M[F]_(rows 1 false)) (G0 + 1 *: 1%:M) K0 /\
          is_kron (symmetric_part A1 : 'M[F]_(rows 1 false)) (symmetric_part G1) K1
        & sequence_cov 2 K0 K1 *m cw <> cv].
Proof. by move=> F eigh svd pow meth he hs hp; apply: option1_witness. Qed.
Print Assumptions C78_option1_is_sequence_covariance_refuted.

(** What it does: the covariances between successive uses are replaced by their absolute
    values relative to the damped covariances.  These exist and are unique. *)
Theorem C78_option1_inverts_absolute_sequence_covariance_partial :
  forall (F : rcfType) eigh svd (pow : F -> F -> F) (m n T : nat) (has_bias : bool) meth (clip : F)
         (idsA1 idsA2 idsG1 idsG2 : seq nat) (dampA dampG : nat -> F)
         (A0 A1 : 'M[F]_(rows m has_bias)) (G0 G1 : 'M[F]_n) (ia ig : nat) (v : params F m n has_bias),
    eigh_contract eigh -> svd_contract svd -> power_laws pow -> clip <= 0 ->
    psd A0 -> psd G0 -> 0 < dampA ia -> 0 < dampG ig ->
    shift_bounded A0 A1 -> shift_bounded G0 G1 -> (0 < T)%N ->
    List.In ia idsA1 -> List.In ig idsG1 ->
    let A := A0 + dampA ia *: 1%:M in let G := G0 + dampG ig *: 1%:M in
    [/\ exists A1', relative_abs A (symmetric_part A1) A1' /\
          forall P, relative_abs A (symmetric_part A1) P -> P = A1',
        exists G1', relative_abs G (symmetric_part G1) G1' /\
          forall P, relative_abs G (symmetric_part G1) P -> P = G1'
      & exists w,
          series_multiply_matpower Option1 T (series_update eigh svd pow meth clip idsA1 idsA2 dampA A0 A1)
            (series_update eigh svd pow meth clip idsG1 idsG2 dampG G0 G1) ia ig v (-1) = Ok w /\
          forall cv cw A1' G1' K0 K1, is_column v cv -> is_column w cw ->
            relative_abs A (symmetric_part A1) A1' -> relative_abs G (symmetric_part G1) G1' ->
            is_kron A G K0 -> is_kron A1' G1' K1 -> sequence_cov T K0 K1 *m cw = cv].
Proof.
move=> F eigh svd pow m n T b meth clip idsA1 idsA2 idsG1 idsG2 dampA dampG A0 A1 G0 G1 ia ig v
  he hs hp hc hA hG dA dG bA bG T0 iA iG A G; split.
- exact: (abs_exists he hs hp hA dA bA).
- exact: (abs_exists he hs hp hG dG bG).
- exact: block_option1.
Qed.
Print Assumptions C78_option1_inverts_absolute_sequence_covariance_partial.

(** In particular the claim holds when the symmetrised covariances between successive uses are
    positive semidefinite. *)
Theorem C78_option1_positive_partial :
  forall (F : rcfType) eigh svd (pow : F -> F -> F) (m n T : nat) (has_bias : bool) meth (clip : F)
         (idsA1 idsA2 idsG1 idsG2 : seq nat) (dampA dampG : nat -> F)
         (A0 A1 : 'M[F]_(rows m has_bias)) (G0 G1 : 'M[F]_n) (ia ig : nat) (v : params F m n has_bias),
    eigh_contract eigh -> svd_contract svd -> power_laws pow -> clip <= 0 ->
    psd A0 -> psd G0 -> 0 < dampA ia -> 0 < dampG ig ->
    shift_bounded A0 A1 -> shift_bounded G0 G1 -> (0 < T)%N ->
    List.In ia idsA1 -> List.In ig idsG1 ->
    psd (symmetric_part A1) -> psd (symmetric_part G1) ->
    exists w,
      series_multiply_matpower Option1 T (series_update eigh svd pow meth clip idsA1 idsA2 dampA A0 A1)
        (series_update eigh svd pow meth clip idsG1 idsG2 dampG G0 G1) ia ig v (-1) = Ok w /\
      forall cv cw K0 K1, is_column v cv -> is_column w cw ->
        is_kron (A0 + dampA ia *: 1%:M) (G0 + dampG ig *: 1%:M) K0 ->
        is_kron (symmetric_part A1) (symmetric_part G1) K1 -> sequence_cov T K0 K1 *m cw = cv.
Proof.
move=> F eigh svd pow m n T b meth clip idsA1 idsA2 idsG1 idsG2 dampA dampG A0 A1 G0 G1 ia ig v
  he hs hp hc hA hG dA dG bA bG T0 iA iG pA pG.
have [w [hw h]] := @block_option1 F eigh svd pow he hs hp m n T b meth clip idsA1 idsA2 idsG1 idsG2
  dampA dampG A0 A1 G0 G1 ia ig hc hA hG dA dG bA bG T0 v iA iG.
exists w; split=> // cv cw K0 K1 h1 h2; exact: h.
Qed.
Print Assumptions C78_option1_positive_partial.

(** Only inverses are offered. *)
Theorem C78_only_inverses :
  forall (F : rcfType) (m n T : nat) (has_bias : bool) option input output ia ig (v : params F m n has_bias) exp,
    exp <> -1 ->
    series_multiply_matpower option T input output ia ig v exp = Raise NotImplementedErr /\
    series_register_matpower option exp = Raise NotImplementedErr /\
    series_multiply_cholesky v = Raise NotImplementedErr /\
    series_multiply_cholesky_inverse v = Raise NotImplementedErr.
Proof.
by move=> F m n T b o i u ia ig v e /eqP h; rewrite /series_multiply_matpower /series_register_matpower h.
Qed.
Print Assumptions C78_only_inverses.

(** The contracts can be met, and covariances with positive and negative parts. *)
Example C78_hypotheses_met : forall F : rcfType,
  [/\ eigh_contract (@an_eigh F), svd_contract (@an_svd F) & power_laws (@a_pow F)] /\
  let A0 : 'M[F]_(rows 2 true) := 3%:R%:M in let A1 : 'M[F]_(rows 2 true) := delta_mx 0 ord_max in
  [/\ psd A0, shift_bounded A0 A1 & A1^T <> A1] /\
  psd (symmetric_part (1%:M : 'M[F]_2)) /\ shift_bounded (3%:R%:M : 'M[F]_2) 1%:M.
Proof.
move=> F; split; first by split; [exact: an_eigh_contract|exact: an_svd_contract|exact: a_pow_laws].
move=> A0 A1; split; [split|split].
- by apply: psd_scalar; rewrite ler0n.
- exact: shift_delta.
- move=> h; have := congr1 (fun M : 'M[F]_3 => M 0 ord_max) h.
  by rewrite /= !mxE /= => /eqP; rewrite eq_sym oner_eq0.
- by rewrite symmetric_part_id ?trmx1 //; apply: psd_scalar; rewrite ler01.
- by apply: scalar_shift; rewrite normr1 ler1n.
Qed.

(* ======================================================================= *)
(** ** C79 *)

(** The inverse for option 2 is the inverse of [T * (W + W^T - V0)], where [V0] is the covariance
    of the gradient of a use and [W] the sum of the covariances at all lags. *)
Theorem C79_option2_inverts_lag_sum :
  forall (F : rcfType) eigh svd (pow : F -> F -> F) (m n T : nat) (has_bias : bool) meth (clip : F)
         (idsA1 idsA2 idsG1 idsG2 : seq nat) (dampA dampG : nat -> F)
         (A0 A1 : 'M[F]_(rows m has_bias)) (G0 G1 : 'M[F]_n) (ia ig : nat) (v : params F m n has_bias),
    eigh_contract eigh -> svd_contract svd -> power_laws pow -> clip <= 0 ->
    psd A0 -> psd G0 -> 0 < dampA ia -> 0 < dampG ig ->
    shift_bounded A0 A1 -> shift_bounded G0 G1 -> (0 < T)%N ->
    List.In ia idsA2 -> List.In ig idsG2 ->
    idsA1 = [::] \/ A1^T = A1 -> idsG1 = [::] \/ G1^T = G1 ->
    exists w,
      series_multiply_matpower Option2 T (series_update eigh svd pow meth clip idsA1 idsA2 dampA A0 A1)
        (series_update eigh svd pow meth clip idsG1 idsG2 dampG G0 G1) ia ig v (-1) = Ok w /\
      forall cv cw K0 K1, is_column v cv -> is_column w cw ->
        is_kron (A0 + dampA ia *: 1%:M) (G0 + dampG ig *: 1%:M) K0 -> is_kron A1 G1 K1 ->
        (exists W, is_lag_sum K0 K1 W /\ forall W', is_lag_sum K0 K1 W' -> W' = W) /\
        forall W, is_lag_sum K0 K1 W -> (T%:R *: (W + W^T - K0)) *m cw = cv.
Proof.
move=> F eigh svd pow m n T b meth clip idsA1 idsA2 idsG1 idsG2 dampA dampG A0 A1 G0 G1 ia ig v
  he hs hp hc hA hG dA dG bA bG T0 iA iG; exact: block_option2.
Qed.
Print Assumptions C79_option2_inverts_lag_sum.

(** [W] is the limit, at a geometric rate, of the sums of the covariances at finitely many
    lags; and the matrix of option 2 differs from the covariance of the sum over [t] uses
    by a bounded matrix, however many uses there are (both grow like [t]). *)
Theorem C79_lag_sum_is_limit :
  forall (F : rcfType) (m n : nat) (A0 A1 : 'M[F]_m) (G0 G1 : 'M[F]_n) (a g : F) K0 K1 W,
    psd A0 -> psd G0 -> 0 < a -> 0 < g -> shift_bounded A0 A1 -> shift_bounded G0 G1 ->
    is_kron (A0 + a *: 1%:M) (G0 + g *: 1%:M) K0 -> is_kron A1 G1 K1 -> is_lag_sum K0 K1 W ->
    (exists r c, [/\ 0 <= r, r < 1, 0 <= c & forall N i j,
       `|(W - \sum_(d < N) lag_cov K0 K1 d) i j| <= c * r ^+ N]) /\
    exists c, forall t i j, `|(t%:R *: (W + W^T - K0) - sequence_cov t K0 K1) i j| <= c.
Proof.
move=> F m n A0 A1 G0 G1 a g K0 K1 W hA hG a0 g0 bA bG.
exact: (@lag_sum_limits F (@an_eigh F) (@an_svd F) (@a_pow F) (@an_eigh_contract F) (@an_svd_contract F)
  (@a_pow_laws F) m n false 0 (fun=> a) (fun=> g) A0 A1 G0 G1 0 0 (lexx _)).
Qed.
Print Assumptions C79_lag_sum_is_limit.

(* ======================================================================= *)
(** ** C80 *)

(** The statistics of one tensor always satisfy what the theorems above assume of the two
    covariances, and the second one is defined whenever every use has an example. *)
Theorem C80_statistics_of_a_batch :
  forall (F : rcfType) (n T : nat) (t : tensor 'rV[F]_n),
    (0 < T)%N ->
    [/\ (forall M, multi_new_cov_dt1 T t = Ok M -> shift_bounded (multi_new_cov t) M),
        (forall M, multi_new_cov_dt1_bias T t = Ok M -> shift_bounded (multi_new_cov_bias t) M)
      & (T <= size (tensor_rows t))%N ->
        (exists M, multi_new_cov_dt1 T t = Ok M) /\ exists M, multi_new_cov_dt1_bias T t = Ok M].
Proof.
move=> F n T t T0; split.
- by move=> M; exact: new_stats_bounded.
- by move=> M; exact: new_stats_bounded.
- by move=> h; split; apply: dt1_defined; rewrite ?size_map.
Qed.
Print Assumptions C80_statistics_of_a_batch.

(** So do the moving averages after any number of updates from any data, with any
    nonnegative decays and weights. *)
Theorem C80_statistics_of_any_history :
  forall (F : rcfType) (n uses num_replicas num_sources num_towers : nat) (normalize : bool)
         (stat1 : tensor 'rV[F]_n -> 'M[F]_n)
         (updates : seq ((nat -> nat -> nat -> tensor 'rV[F]_n) * (F * F))),
    (0 < uses)%N ->
    List.Forall (fun u => [/\ 0 <= u.2.1, 0 <= u.2.2 &
      forall r s t, (r < num_replicas)%N -> (s < num_sources)%N -> (t < num_towers)%N ->
        multi_new_cov_dt1 uses (u.1 r s t) = Ok (stat1 (u.1 r s t))]) updates ->
    let after stat := covariance_after normalize stat num_replicas num_sources num_towers updates in
    psd (after (@multi_new_cov F n)) /\ shift_bounded (after (@multi_new_cov F n)) (after stat1).
Proof.
move=> F n uses R S T normalize stat1 updates u0 hu after; split.
  by apply: history_psd => [x|]; [exact: compute_cov_psd|elim: hu => [|u us [h1 h2 _] _ IH]; constructor].
apply: history_bounded; elim: hu => [|u us [h1 h2 h] _ IH]; constructor=> //; split=> // r s t hr hs ht.
exact: new_stats_bounded u0 (h r s t hr hs ht).
Qed.
Print Assumptions C80_statistics_of_any_history.

(** The same with a bias. *)
Theorem C80_statistics_of_any_history_bias :
  forall (F : rcfType) (n uses num_replicas num_sources num_towers : nat) (normalize : bool)
         (stat1 : tensor 'rV[F]_n -> 'M[F]_(n + 1))
         (updates : seq ((nat -> nat -> nat -> tensor 'rV[F]_n) * (F * F))),
    (0 < uses)%N ->
    List.Forall (fun u => [/\ 0 <= u.2.1, 0 <= u.2.2 &
      forall r s t, (r < num_replicas)%N -> (s < num_sources)%N -> (t < num_towers)%N ->
        multi_new_cov_dt1_bias uses (u.1 r s t) = Ok (stat1 (u.1 r s t))]) updates ->
    let after stat := covariance_after normalize stat num_replicas num_sources num_towers updates in
    psd (after (@multi_new_cov_bias F n)) /\ shift_bounded (after (@multi_new_cov_bias F n)) (after stat1).
Proof.
move=> F n uses R S T normalize stat1 updates u0 hu after; split.
  by apply: history_psd => [x|]; [exact: compute_cov_psd|elim: hu => [|u us [h1 h2 _] _ IH]; constructor].
apply: history_bounded; elim: hu => [|u us [h1 h2 h] _ IH]; constructor=> //; split=> // r s t hr hs ht.
exact: new_stats_bounded u0 (h r s t hr hs ht).
Qed.
Print Assumptions C80_statistics_of_any_history_bias.

Example C80_hypotheses_met : forall F : rcfType,
  let t : tensor 'rV[F]_2 := Rank2 [:: const_mx 1; const_mx (-1); const_mx 1; const_mx (-1)] in
  (2 <= size (tensor_rows t))%N /\
  exists M, multi_new_cov_dt1 2 t = Ok M /\ M 0 0 = 2^-1.
Proof.
move=> F t; split=> //; eexists; split; first by rewrite /multi_new_cov_dt1 dt1_of_pairs.
rewrite /formed /future_rows /present_rows /= !big_cons big_nil addr0 !mxE !big_ord1 !mxE !mulr1 mulrNN mulr1.
apply: (@mulfI _ 4%:R); first by rewrite pnatr_eq0.
rewrite mulrA mulfV ?pnatr_eq0 // mul1r -[4%N]/(2 * 2)%N natrM -mulrA mulfV ?pnatr_eq0 // mulr1 //.
Qed.

(* ======================================================================= *)
(** ** C81 *)

(** "What a factor serves to one block does not depend on what other blocks registered" is false:
    when another block of the same factor uses option 1, a block of option 2 gets the inverse for the
    symmetrised covariance. *)
Theorem C81_registrations_are_independent_refuted :
  forall (F : rcfType) eigh svd (pow : F -> F -> F) meth,
    eigh_contract eigh -> svd_contract svd -> power_laws pow ->
    let A0 : 'M[F]_2 := 3%:R%:M in let A1 : 'M[F]_2 := delta_mx 0 1 in
    let G0 : 'M[F]_1 := 3%:R%:M in let G1 : 'M[F]_1 := delta_mx 0 0 in
    let input ids1 := series_update eigh svd pow meth 0 ids1 [:: 0%N] (fun=> 1) A0 A1 in
    let output := series_update eigh svd pow meth 0 [::] [:: 0%N] (fun=> 1) G0 G1 in
    [/\ psd A0, psd G0, shift_bounded A0 A1 & shift_bounded G0 G1] /\
    forall v : params F 2 1 false, v <> 0 :> 'M[F]_(2, 1) ->
    exists w w' : params F 2 1 false,
      [/\ series_multiply_matpower Option2 2 (input [::] : series_quants F (rows 2 false)) output 0 0 v (-1) = Ok w,
          series_multiply_matpower Option2 2 (input [:: 1%N] : series_quants F (rows 2 false)) output 0 0 v (-1)
            = Ok w' & w <> w'].
Proof. by move=> F eigh svd pow meth he hs hp; apply: option2_witness. Qed.
Print Assumptions C81_registrations_are_independent_refuted.

(** Option 1 does not depend on the other registrations; option 2 does not as long as no
    block of option 1 shares the factor, or the covariance is symmetric. *)
Theorem C81_registrations_are_independent_partial :
  forall (F : rcfType) eigh svd (pow : F -> F -> F) meth (clip : F) (n : nat)
         (ids1 ids2 ids1' ids2' : seq nat) (damp damp' : nat -> F) (C0 C1 : 'M[F]_n) (id : nat),
    damp id = damp' id ->
    let served ids1 ids2 damp := series_update eigh svd pow meth clip ids1 ids2 damp C0 C1 in
    (List.In id ids1 -> List.In id ids1' ->
     get_option1quants (served ids1 ids2 damp) id = get_option1quants (served ids1' ids2' damp') id) /\
    (List.In id ids2 -> List.In id ids2' -> (ids1 = [::] /\ ids1' = [::]) \/ C1^T = C1 ->
     get_option2quants (served ids1 ids2 damp) id = get_option2quants (served ids1' ids2' damp') id).
Proof.
move=> F eigh svd pow meth clip n ids1 ids2 ids1' ids2' damp damp' C0 C1 id e served; split.
  by move=> h h'; rewrite !get1 // e.
move=> h h' hs; rewrite !get2 // e; congr (Ok (option2_iteration _ _ _ _ _)).
by case: hs => [[-> ->] //|/symmetric_part_id hs]; rewrite hs; case: (ids1); case: (ids1').
Qed.
Print Assumptions C81_registrations_are_independent_partial.

(** Blocks with damping 2 and with damping 3, the second on another option. *)
Example C81_hypotheses_met : forall F : rcfType,
  let C1 : 'M[F]_2 := delta_mx 0 1 in
  exists q, get_option1quants (series_update (@an_eigh F) (@an_svd F) (@a_pow F) Svd 0 [:: 0%N] [:: 1%N]
    (fun i => (i.+2)%:R) (3%:R%:M : 'M[F]_2) C1) 0 = Ok q.
Proof. by move=> F C1; eexists; rewrite get1 //; left. Qed.

(* ======================================================================= *)
(** ** C82 *)

(** A block that treats uses as independent multiplies by the power of [T] times the Kronecker
    product of the damped factors, whose dampings multiply to the given damping divided by the
    [power]-th power of [T] (by [T] itself in the default setting). *)
Theorem C82_independent_uses :
  forall (F : rcfType) (eigh : forall n, 'M[F]_n -> 'rV[F]_n * 'M[F]_n) (pow : F -> F -> F)
         (threshold : nat) (clip : F) (meth : posdef_inv_method) (pt : pi_type) (power damping : F)
         (m n T : nat) (has_bias : bool) (regsA regsG : seq (registration F)) (dampA dampG : nat -> F)
         (A : 'M[F]_(rows m has_bias)) (G : 'M[F]_n)
         (inputs : dense F (rows m has_bias)) (outputs : dense F n) (ia ig : nat) (e : F)
         (v : params F m n has_bias),
    eigh_contract eigh -> power_laws pow -> clip <= 0 ->
    up_to_date eigh pow threshold clip meth regsA dampA A inputs ->
    up_to_date eigh pow threshold clip meth regsG dampG G outputs ->
    psd A -> psd G -> (0 < T)%N -> 0 < damping ->
    multi_indep_damping pow pt power (FullMatrix A) (FullMatrix G) damping T = Ok (dampA ia, dampG ig) ->
    e = 1 \/ (List.In (RegMatpower e ia) regsA /\ List.In (RegMatpower e ig) regsG) ->
    [/\ 0 < dampA ia, 0 < dampG ig,
        dampA ia * dampG ig = normalised pow power damping (Some T%:R),
        (power = 1 -> T%:R * (dampA ia * dampG ig) = damping)
      & exists w,
          kron_multiply_matpower pow (fun e => get_matpower inputs dampA e ia)
            (fun e => get_matpower outputs dampG e ig) (multi_indep_renorm F T) v e = Ok w /\
          forall cv cw K, is_column v cv -> is_column w cw ->
            is_kron (A + dampA ia *: 1%:M) (G + dampG ig *: 1%:M) K ->
            exists M, is_matpower pow (T%:R *: K) e M /\ cw = M *m cv].
Proof.
move=> F eigh pow th clip meth pt power damping m n T b rA rG dA dG A G sA sG ia ig e v he hp hc uA uG pA pG T0
  d0 hd h.
have T1 : 0 < T%:R :> F by rewrite ltr0n.
have n0 : 0 < normalised pow power damping (Some T%:R).
  by rewrite /normalised; case: eqP => // _; rewrite divr_gt0 //; apply: pow_pos.
have [a [g [hs [a0 g0 ag]]]] := damping_split pt (A := FullMatrix A) (G := FullMatrix G) pA pG n0.
move: hd; rewrite /multi_indep_damping hs => -[ea eg]; rewrite -ea -eg.
have a0' : 0 < dA ia by rewrite -ea. have g0' : 0 < dG ig by rewrite -eg.
split=> //.
  move=> p1; rewrite ag /normalised p1 oner_eq0 (pow_one hp) // mulrCA mulfV ?mulr1 //.
  by rewrite lt0r_neq0.
rewrite ea eg; exact: (kron_power he hp hc uA uG pA pG a0' g0' T1).
Qed.
Print Assumptions C82_independent_uses.

(** "The convolution block for several uses computes the statistics of its inputs from all
    examples unless sub-sampling was asked for" is false: the number of uses is passed as that
    option.  With the default settings of the module it uses a fifth of the examples, for any
    number of uses, where the block for one use uses all. *)
Theorem C82_convolution_uses_all_examples_refuted :
  forall (X : Type) (d : X) (T : nat) (shuffled : seq nat) (inputs : seq X),
    (0 < T)%N -> (0 < size inputs)%N -> Permutation shuffled (iota 0 (size inputs)) ->
    let used setting := conv_factor_inputs setting (1, 5)%N shuffled d inputs in
    size (used (sub_sample_inputs_setting false (conv_multi_sub_sample_inputs T)))
      = ((size inputs).-1 %/ 5).+1 /\
    used (sub_sample_inputs_setting false conv_basic_sub_sample_inputs) = inputs.
Proof.
move=> X d T sh inputs T0 h0 hp used; split=> //; rewrite /used /sub_sample_inputs_setting /= lt0n_neq0 //.
by apply: sub_size => //; rewrite (perm_size hp) size_iota.
Qed.
Print Assumptions C82_convolution_uses_all_examples_refuted.

(** What holds: with the factor set to one every example is used once, in another order. *)
Theorem C82_convolution_uses_all_examples_partial :
  forall (X : Type) (d : X) (T q : nat) (shuffled : seq nat) (inputs : seq X),
    (0 < q)%N -> Permutation shuffled (iota 0 (size inputs)) ->
    Permutation (conv_factor_inputs (sub_sample_inputs_setting false (conv_multi_sub_sample_inputs T))
                   (q, q)%N shuffled d inputs) inputs.
Proof. exact: sub_all. Qed.
Print Assumptions C82_convolution_uses_all_examples_partial.

(** "A series block accepts data of any documented format" is false: tensors of rank three
    [uses, examples, features] are accepted only if there are as many examples as features
    (the variables of the time series quantities are made with the second dimension). *)
Theorem C82_series_rank3_refuted : forall (T b n : nat) (has_bias : bool),
  multi_cov_size [:: T; b; n] has_bias = Ok (n + has_bias)%N /\
  (assign_series_vector [:: T; b; n] has_bias = Ok tt <-> b = n).
Proof. by move=> T b n bias; split; [|exact: vector_fits]. Qed.
Print Assumptions C82_series_rank3_refuted.

Theorem C82_series_rank2_partial : forall (rows n : nat) (has_bias : bool),
  assign_series_vector [:: rows; n] has_bias = Ok tt.
Proof. by move=> r n bias; rewrite /assign_series_vector /= eqxx. Qed.
Print Assumptions C82_series_rank2_partial.

Example C82_hypotheses_met : forall F : rcfType,
  exists a g, multi_indep_damping (@a_pow F) PiOff 1 (FullMatrix (1%:M : 'M[F]_3)) (FullMatrix (1%:M : 'M[F]_2))
    1 4 = Ok (a, g) /\ Permutation [:: 3; 1; 2; 0]%N (iota 0 (size [:: 5; 6; 7; 8]%N)).
Proof.
move=> F; have p k : psd (1%:M : 'M[F]_k) by apply: psd_scalar; rewrite ler01.
have n0 : 0 < normalised (@a_pow F) 1 1 (Some 4%:R).
  by rewrite /normalised oner_eq0 divr_gt0 ?ltr01 //; apply: pow_pos; [exact: a_pow_laws|rewrite ltr0n].
have [a [g [hs _]]] := damping_split PiOff (A := FullMatrix (1%:M : 'M[F]_3)) (G := FullMatrix (1%:M : 'M[F]_2))
  (p 3%N) (p 2%N) n0.
exists a, g; split; first exact: hs.
apply: (Permutation_trans (l' := [:: 1; 3; 2; 0]%N)); first exact: perm_swap.
apply: (Permutation_trans (l' := [:: 1; 0; 2; 3]%N)); last exact: perm_swap.
apply: perm_skip; apply: (Permutation_trans (l' := [:: 2; 3; 0]%N)); first exact: perm_swap.
apply: (Permutation_trans (l' := [:: 2; 0; 3]%N)); [by apply: perm_skip; exact: perm_swap|exact: perm_swap].
Qed.
