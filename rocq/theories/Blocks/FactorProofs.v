From mathcomp Require Import all_ssreflect all_algebra.
From Verif.Base Require Import Py.
From Verif.Blocks Require Import Model Spec MatProofs PsdProofs EigProofs.
Set Implicit Arguments.
Unset Strict Implicit.
Unset Printing Implicit Defensive.
Import GRing.Theory Num.Theory Order.TTheory.
Local Open Scope ring_scope.

Section Powers.
Variable F : rcfType.
Variable eigh : forall n, 'M[F]_n -> 'rV[F]_n * 'M[F]_n.
Variable pow : F -> F -> F.
Hypothesis eighP : eigh_contract eigh.
Hypothesis powP : power_laws pow.

Lemma eigvalE n (M V : 'M[F]_n) d : diagonalises d V M ->
  forall i, d 0 i = ((col i V)^T *m M *m col i V) 0 0.
Proof.
move=> [hV hM] i; have hV' := orth_unit hV.
rewrite colE trmx_mul trmx_delta -!mulmxA.
have -> : V^T *m (M *m (V *m delta_mx i (0 : 'I_1))) = diag_mx d *m delta_mx i 0.
  by rewrite hM !mulmxA hV' mul1mx -[_ *m V^T *m V]mulmxA hV' mulmx1.
by rewrite -rowE -colE !mxE eqxx mulr1n.
Qed.
Lemma psd_eigval n (M V : 'M[F]_n) d : psd M -> diagonalises d V M -> forall i, 0 <= d 0 i.
Proof. by move=> [_ h] hd i; rewrite (eigvalE hd). Qed.
Lemma pd_eigval n (M V : 'M[F]_n) d : pd M -> diagonalises d V M -> forall i, 0 < d 0 i.
Proof.
move=> [_ h] hd i; rewrite (eigvalE hd); apply: h.
case: hd => hV _; have hV' := orth_unit hV.
apply/eqP => h0; have : (V^T *m col i V) i 0 = 1.
  by rewrite colE mulmxA hV' mul1mx mxE !eqxx.
by rewrite h0 mulmx0 mxE => /eqP; rewrite eq_sym oner_eq0.
Qed.

Lemma eig_recomposeE n (V : 'M[F]_n) w : eig_recompose V w = V *m diag_mx w *m V^T.
Proof. by congr (_ *m _); apply/matrixP => i j; rewrite mul_mx_diag !mxE. Qed.

Lemma diag_shift n (d : 'rV[F]_n) a : diag_mx d + a *: 1%:M = diag_mx (\row_j (d 0 j + a)).
Proof.
apply/matrixP => i j; rewrite !mxE; case: eqP => _; rewrite ?mulr1n ?mulr0n ?mulr1 ?mulr0 ?addr0 //.
Qed.
Lemma diagonalises_shift n (M V : 'M[F]_n) d a : diagonalises d V M ->
  diagonalises (\row_j (d 0 j + a)) V (M + a *: 1%:M).
Proof.
move=> [hV hM]; split=> //; rewrite -diag_shift mulmxDr mulmxDl -hM.
by rewrite -scalemxAr mulmx1 -scalemxAl hV.
Qed.

Lemma diag_inv n (d : 'rV[F]_n) : (forall i, d 0 i != 0) ->
  diag_mx d *m diag_mx (\row_i (d 0 i)^-1) = 1%:M.
Proof.
move=> h; apply/matrixP => i j; rewrite mul_diag_mx !mxE; case: eqP => [->|_].
  by rewrite !mulr1n divff.
by rewrite !mulr0n mulr0.
Qed.

Lemma matpower_inv n (M : 'M[F]_n) : pd M -> is_matpower pow M (-1) (invmx M).
Proof.
move=> hM; have [[d V] hd] := spectral (proj1 hM); have /= pos := pd_eigval hM hd.
case: (hd) => /= hV hMd; exists V, d; split=> //.
apply/esym/invmx_unique; rewrite {1}hMd.
have -> : (\row_i pow (d 0 i) (-1)) = \row_i (d 0 i)^-1.
  by apply/rowP => i; rewrite !mxE (pow_minus_one powP).
rewrite !mulmxA -[_ *m V^T *m V]mulmxA orth_unit // mulmx1 -[V *m _ *m _]mulmxA.
by rewrite diag_inv ?mulmx1 // => i; rewrite gt_eqF.
Qed.
Lemma matpower_one n (M : 'M[F]_n) : pd M -> is_matpower pow M 1 M.
Proof.
move=> hM; have [[d V] hd] := spectral (proj1 hM); have /= pos := pd_eigval hM hd.
case: (hd) => /= hV hMd; exists V, d; split=> //; rewrite {1}hMd; congr (_ *m diag_mx _ *m _).
by apply/rowP => i; rewrite !mxE (pow_one powP).
Qed.
Lemma matpower_pd n (M P : 'M[F]_n) e : is_matpower pow M e P -> pd M /\ pd P.
Proof.
move=> [V [d [hV pos -> ->]]]; have hV' := orth_unit hV.
have h (f : 'rV[F]_n) : (forall i, 0 < f 0 i) -> pd (V *m diag_mx f *m V^T).
  move=> pf; have -> : V *m diag_mx f *m V^T =
     (V *m diag_mx (\row_i Num.sqrt (f 0 i))) *m (V *m diag_mx (\row_i Num.sqrt (f 0 i)))^T.
    rewrite trmx_mul tr_diag_mx !mulmxA -[V *m _ *m diag_mx _]mulmxA mulmx_diag.
    congr (_ *m diag_mx _ *m _); apply/rowP => i; rewrite !mxE -expr2 sqr_sqrtr //; exact: ltW.
  apply: pd_gram; rewrite unitmx_mul (proj1 (mulmx1_unit hV)) /=.
  rewrite unitmxE det_diag unitfE prodf_seq_neq0; apply/allP => i _ /=.
  by rewrite mxE gt_eqF // sqrtr_gt0.
by split; apply: h => // i; rewrite mxE; apply: (pow_pos powP).
Qed.
Lemma matpower_sym n (M P : 'M[F]_n) e : is_matpower pow M e P -> P^T = P.
Proof. by case/matpower_pd => _ []. Qed.
Lemma matpower_invE n (M P : 'M[F]_n) : is_matpower pow M (-1) P -> P = invmx M.
Proof.
move=> h; have [hM _] := matpower_pd h; exact: is_matpower_unique h (matpower_inv hM).
Qed.
Lemma matpower_oneE n (M P : 'M[F]_n) : is_matpower pow M 1 P -> P = M.
Proof.
move=> h; have [hM _] := matpower_pd h; exact: is_matpower_unique h (matpower_one hM).
Qed.

Lemma posdef_invE meth n (M : 'M[F]_n) a : psd M -> 0 < a ->
  posdef_inv eigh meth M a = invmx (M + a *: 1%:M).
Proof.
move=> hM a0; have hp := psd_damped hM a0; case: meth => //=.
  exact: cholesky_solve_inv.
have := eighP (proj1 hp); case: (eigh _) => e V /= hd.
have pos := pd_eigval hp hd; case: (hd) => hV hMd.
rewrite eig_recomposeE; apply: invmx_unique; rewrite {1}hMd.
rewrite !mulmxA -[_ *m V^T *m V]mulmxA orth_unit // mulmx1 -[V *m _ *m _]mulmxA.
by rewrite diag_inv ?mulmx1 // => i; rewrite gt_eqF.
Qed.

(** Clipping at a threshold that is not positive does not change a positive semidefinite
    matrix. *)
Lemma eig_power (clip : F) n (M : 'M[F]_n) a e : psd M -> 0 < a -> clip <= 0 ->
  is_matpower pow (M + a *: 1%:M) e
    (eig_recompose (eigh M).2 (\row_j pow (Num.max ((eigh M).1 0 j) clip + a) e)).
Proof.
move=> hM a0 c0; have hd := eighP (proj1 hM); have pos := psd_eigval hM hd.
exists (eigh M).2, (\row_j ((eigh M).1 0 j + a)).
have [hV hMd] := diagonalises_shift a hd; split=> //.
  by move=> i; rewrite mxE ltr_paddl.
rewrite eig_recomposeE; congr (_ *m diag_mx _ *m _); apply/rowP => j; rewrite !mxE.
by rewrite max_l // (le_trans c0).
Qed.
End Powers.

(** * The life of a dense factor *)
Section Lifecycle.
Variable F : rcfType.
Variable eigh : forall n, 'M[F]_n -> 'rV[F]_n * 'M[F]_n.
Variable pow : F -> F -> F.
Variable n : nat.
Implicit Types (s : dense F n) (a : assignment F) (e : event F n).

Lemma dict_get_assign (K : eqType) X (d : seq (K * X)) k x k' :
  dict_get (dict_assign d k x) k' =
  if (k' == k) && isSome (dict_get d k') then Some x else dict_get d k'.
Proof.
elim: d => [|[k0 x0] d IH] /=; first by rewrite andbF.
case e1 : (k0 == k); case e2 : (k0 == k') => /=; rewrite ?e1 ?e2 //=.
- by rewrite -(eqP e2) e1.
- by rewrite -(eqP e2) e1.
Qed.
Lemma dict_get_map (K : eqType) X (ks : seq K) (x : X) k :
  dict_get [seq (k, x) | k <- ks] k = if k \in ks then Some x else None.
Proof.
elim: ks => //= k0 ks IH; rewrite in_cons eq_sym.
by case: eqP => //= _; rewrite eq_sym.
Qed.

(** What an assignment writes to a given variable. *)
Definition wr_mp clip meth (damp : nat -> F) (c : 'M[F]_n) (key : F * nat) a : option 'M[F]_n :=
  match a with
  | AssignMatpowerEig ex id =>
      if key == (ex, id) then
        Some (eig_recompose (eigh c).2
                (\row_j pow (Num.max ((eigh c).1 0 j) clip + damp id) ex))
      else None
  | AssignInverse id =>
      if key == (-1, id) then Some (posdef_inv eigh meth c (damp id)) else None
  | _ => None
  end.
Definition wr_ch (damp : nat -> F) (c : 'M[F]_n) (key : nat) a : option 'M[F]_n :=
  match a with
  | AssignCholesky id => if key == id then Some (cholesky c (damp id)) else None
  | _ => None
  end.
Definition wr_ci (damp : nat -> F) (c : 'M[F]_n) (key : nat) a : option 'M[F]_n :=
  match a with
  | AssignCholinv id =>
      if key == id then Some (triangular_solve (cholesky c (damp id)) 1%:M) else None
  | _ => None
  end.

Lemma ra_cov clip meth damp s a : d_cov (run_assignment eigh pow clip meth damp s a) = d_cov s.
Proof. by case: a => //= ex id; case: get_eigendecomp. Qed.
Lemma ra_mp clip meth damp s a key :
  dict_get (d_matpower (run_assignment eigh pow clip meth damp s a)) key =
  omap (fun v => odflt v (wr_mp clip meth damp (d_cov s) key a)) (dict_get (d_matpower s) key).
Proof.
case: a => [ex id|id|id|id] /=; try by case: dict_get.
- rewrite /get_eigendecomp; case: (eigh (d_cov s)) => ev V /=; rewrite dict_get_assign.
  case: eqP => _ /=; last by case: dict_get.
  case: dict_get => //= _; congr (Some (eig_recompose _ _)).
  by apply/rowP => j; rewrite !mxE.
- by rewrite dict_get_assign; case: eqP => _ /=; case: dict_get.
Qed.
Lemma ra_ch clip meth damp s a key :
  dict_get (d_cholesky (run_assignment eigh pow clip meth damp s a)) key =
  omap (fun v => odflt v (wr_ch damp (d_cov s) key a)) (dict_get (d_cholesky s) key).
Proof.
case: a => [ex id|id|id|id] /=; try by [case: dict_get | case: get_eigendecomp => * /=; case: dict_get].
by rewrite dict_get_assign; case: eqP => _ /=; case: dict_get.
Qed.
Lemma ra_ci clip meth damp s a key :
  dict_get (d_cholinv (run_assignment eigh pow clip meth damp s a)) key =
  omap (fun v => odflt v (wr_ci damp (d_cov s) key a)) (dict_get (d_cholinv s) key).
Proof.
case: a => [ex id|id|id|id] /=; try by [case: dict_get | case: get_eigendecomp => * /=; case: dict_get].
by rewrite dict_get_assign; case: eqP => _ /=; case: dict_get.
Qed.

(** The last write of a list of assignments. *)
Definition lastw (w : assignment F -> option 'M[F]_n) (op : seq (assignment F)) (v : 'M[F]_n) :=
  foldl (fun v a => odflt v (w a)) v op.

Section Generic.
(* one of the three dictionaries *)
Variables (K : eqType) (D : dense F n -> seq (K * 'M[F]_n)).
Variable W : (nat -> F) -> 'M[F]_n -> K -> assignment F -> option 'M[F]_n.
Variables (clip : F) (meth : posdef_inv_method).
Hypothesis raP : forall damp s a key,
  dict_get (D (run_assignment eigh pow clip meth damp s a)) key =
  omap (fun v => odflt v (W damp (d_cov s) key a)) (dict_get (D s) key).
Hypothesis setD : forall s c, D (set_cov s c) = D s.
(* whether an assignment writes does not depend on the values *)
Hypothesis Wsome : forall d c d' c' key a, isSome (W d c key a) = isSome (W d' c' key a).

Lemma ro_cov damp s op : d_cov (run_op eigh pow clip meth damp s op) = d_cov s.
Proof. by rewrite /run_op; elim: op s => //= a op IH s; rewrite IH ra_cov. Qed.
Lemma ro_D damp s op key :
  dict_get (D (run_op eigh pow clip meth damp s op)) key =
  omap (lastw (W damp (d_cov s) key) op) (dict_get (D s) key).
Proof.
rewrite /run_op; elim: op s => [|a op IH] s /=; first by case: dict_get.
by rewrite IH raP ra_cov; case: dict_get.
Qed.
Lemma run_cov ops s l :
  d_cov (run eigh pow clip meth ops s l) = cov_after (d_cov s) l.
Proof.
rewrite /run; elim: l s => [|e l IH] s //=; rewrite IH; case: e => [c|k damp] //=.
by rewrite ro_cov.
Qed.

Definition writes key (op : seq (assignment F)) := has (fun a => isSome (W (fun=> 0) 0 key a)) op.
Lemma lastw_none damp c key op v : ~~ writes key op -> lastw (W damp c key) op v = v.
Proof.
rewrite /writes /lastw; elim: op v => //= a op IH v; rewrite negb_or => /andP[h1 h2].
by move: h1; rewrite (Wsome _ _ damp c); case: W => //= _; exact: IH.
Qed.
Lemma lastw_some (Q : 'M[F]_n -> Prop) damp c key op v : writes key op ->
  (forall a x, W damp c key a = Some x -> Q x) -> Q (lastw (W damp c key) op v).
Proof.
move=> hw hq; move: hw; rewrite /lastw -[op]revK /writes has_rev; elim: (rev op) => //= a l IH.
rewrite rev_cons foldl_rcons (Wsome _ _ damp c); case e : (W damp c key a) => [x|] //=.
  by move=> _; apply: (hq a).
Qed.

Lemma run_quiet ops s l k key :
  (forall j, j != k -> ~~ writes key (nth [::] ops j)) -> ~ runs k l ->
  dict_get (D (run eigh pow clip meth ops s l)) key = dict_get (D s) key.
Proof.
move=> hq; rewrite /run; elim: l s => //= e l IH s hr; rewrite IH; last first.
  by case=> d h; apply: hr; exists d; right.
case: e hr => [c|j d] hr /=; first by rewrite setD.
rewrite ro_D; have hj : j != k.
  by apply/eqP => h; apply: hr; exists d; left; rewrite h.
case: dict_get => //= v; rewrite lastw_none //; exact: hq.
Qed.

Lemma served_generic ops s0 k key v0 (Q : 'M[F]_n -> (nat -> F) -> 'M[F]_n -> Prop) :
  dict_get (D s0) key = Some v0 ->
  writes key (nth [::] ops k) ->
  (forall j, j != k -> ~~ writes key (nth [::] ops j)) ->
  (forall c damp a x, W damp c key a = Some x -> Q c damp x) ->
  (forall pre damp post, ~ runs k post ->
     exists P, dict_get (D (run eigh pow clip meth ops s0 (pre ++ RunOp n k damp :: post))) key = Some P
       /\ Q (cov_after (d_cov s0) pre) damp P)
  /\ (forall l, ~ runs k l ->
        dict_get (D (run eigh pow clip meth ops s0 l)) key = Some v0).
Proof.
move=> h0 hw hn hQ; split; last by move=> l hr; rewrite (run_quiet _ hn hr).
move=> pre damp post hr; rewrite /run foldl_cat /= -/(run _ _ _ _ _ _ _) -/(run _ _ _ _ _ _ _).
rewrite (run_quiet _ hn hr) /step ro_D run_cov.
have [v hv] : exists v, dict_get (D (run eigh pow clip meth ops s0 pre)) key = Some v.
  have : isSome (dict_get (D s0) key) by rewrite h0.
  rewrite /run; elim: pre (s0) => [|e pre IH] s; first by case: dict_get => // v _; exists v.
  move=> hs; apply: IH; case: e => [c|j d] /=; rewrite ?setD // ro_D.
  by move: hs; case: dict_get.
rewrite hv /=; eexists; split; first reflexivity.
by apply: (lastw_some v hw) => a x; exact: hQ.
Qed.
End Generic.

(** * Which op covers which variable *)
Definition covers (f : seq (assignment F) -> bool) (ops : seq (seq (assignment F))) :=
  exists k, [/\ (k < size ops)%N, f (nth [::] ops k)
    & forall j, j != k -> ~~ f (nth [::] ops j)].
Lemma nth_none (f : seq (assignment F) -> bool) ops : ~~ f [::] -> ~~ has f ops ->
  forall j, ~~ f (nth [::] ops j).
Proof.
move=> f0 h j; case: (ltnP j (size ops)) => hj; last by rewrite nth_default.
by apply: contra h => h; apply/(has_nthP [::]); exists j.
Qed.
Lemma covers_catl f (a b : seq (seq (assignment F))) : ~~ f [::] -> covers f a -> ~~ has f b -> covers f (a ++ b).
Proof.
move=> f0 [k [h1 h2 h3]] hb; exists k; split.
- by rewrite size_cat ltn_addr.
- by rewrite nth_cat h1.
- by move=> j hj; rewrite nth_cat; case: ltnP => _; [apply: h3 | apply: nth_none].
Qed.
Lemma covers_catr f (a b : seq (seq (assignment F))) : ~~ f [::] -> ~~ has f a -> covers f b -> covers f (a ++ b).
Proof.
move=> f0 ha [k [h1 h2 h3]]; exists (size a + k)%N; split.
- by rewrite size_cat ltn_add2l.
- by rewrite nth_cat ltnNge leq_addr /= addKn.
- move=> j hj; rewrite nth_cat; case: ltnP => h; first exact: nth_none.
  by apply: h3; apply: contra hj => /eqP <-; rewrite subnKC.
Qed.
Lemma covers_map (T : eqType) (f : seq (assignment F) -> bool) (g : T -> seq (assignment F)) xs x0 :
  ~~ f [::] -> uniq xs -> x0 \in xs -> (forall x, x \in xs -> f (g x) = (x == x0)) -> covers f (map g xs).
Proof.
move=> f0 hu hx hf; exists (index x0 xs); rewrite size_map index_mem hx; split=> //.
- by rewrite (nth_map x0) ?index_mem // hf nth_index.
- move=> j hj; case: (ltnP j (size xs)) => h; last by rewrite nth_default ?size_map.
  rewrite (nth_map x0) // hf ?mem_nth //; apply: contra hj => /eqP <-.
  by rewrite index_uniq.
Qed.

(** * Registration *)
Lemma in_set_add (K : eqType) (l : seq K) k x : (x \in set_add l k) = (x == k) || (x \in l).
Proof.
rewrite /set_add; case: ifP => h; last by rewrite mem_rcons in_cons.
by case: eqP => [->|].
Qed.
Lemma uniq_set_add (K : eqType) (l : seq K) k : uniq l -> uniq (set_add l k).
Proof. by rewrite /set_add; case: ifP => h // u; rewrite rcons_uniq h u. Qed.

Definition is_mp key (r : registration F) :=
  match r with RegMatpower ex id => (ex != 1) && (key == (ex, id)) | _ => false end.
Definition is_ch (key : nat) (r : registration F) :=
  match r with RegCholesky id => key == id | _ => false end.
Definition is_ci (key : nat) (r : registration F) :=
  match r with RegCholeskyInverse id => key == id | _ => false end.

Lemma register_inv (regs : seq (registration F)) s :
  let s' := foldl (@register F n) s regs in
  [/\ d_cov s' = d_cov s, d_matpower s' = d_matpower s, d_cholesky s' = d_cholesky s,
      d_cholinv s' = d_cholinv s & d_eigendecomp s' = d_eigendecomp s] /\
  [/\ forall k, (k \in d_matpower_regs s') = (k \in d_matpower_regs s) || has (is_mp k) regs,
      forall k, (k \in d_cholesky_regs s') = (k \in d_cholesky_regs s) || has (is_ch k) regs
    & forall k, (k \in d_cholinv_regs s') = (k \in d_cholinv_regs s) || has (is_ci k) regs] /\
  (uniq (d_matpower_regs s) -> uniq (d_cholesky_regs s) -> uniq (d_cholinv_regs s) ->
   [/\ uniq (d_matpower_regs s'), uniq (d_cholesky_regs s') & uniq (d_cholinv_regs s')]).
Proof.
elim: regs s => [|r regs IH] s /=; first by split=> //; split=> //; split=> k; rewrite orbF.
case: (IH (register s r)) => [[-> -> -> -> ->]] [[h1 h2 h3] h4]; split; [|split].
- by case: r {h1 h2 h3 h4} => [ex id|id|id] //=; rewrite /register_matpower; case: ifP.
- split=> k; rewrite ?h1 ?h2 ?h3; case: r {h1 h2 h3 h4} => [ex id|id|id] //=.
  + rewrite /register_matpower; case: ifP => //= _.
    by rewrite in_set_add -orbA orbCA.
  + by rewrite /register_matpower; case: ifP.
  + by rewrite in_set_add -orbA orbCA.
  + by rewrite /register_matpower; case: ifP.
  + by rewrite in_set_add -orbA orbCA.
- move=> u1 u2 u3; apply: h4; case: r {h1 h2 h3} => [ex id|id|id] //=;
    rewrite ?/register_matpower; try case: ifP => //= _; try exact: uniq_set_add.
Qed.

Lemma finalize_shape th init regs : exists mp ops s0,
  [/\ finalize th init regs = Ok (ops, s0),
      ops = mp ++ [seq (if isSome (dict_get (d_cholesky s0) p.1) then [:: AssignCholesky F p.1] else [::])
                 ++ [:: AssignCholinv F p.1] | p <- d_cholinv s0] ++
            [seq [:: AssignCholesky F p.1] |
               p <- d_cholesky s0 & ~~ isSome (dict_get (d_cholinv s0) p.1)],
      mp = [:: [seq AssignMatpowerEig p.1.1 p.1.2 | p <- d_matpower s0]] \/
        (all (fun p => p.1.1 == -1) (d_matpower s0) /\
         mp = [seq [:: AssignInverse F p.1.2] | p <- d_matpower s0]),
      d_cov s0 = 0
    & exists mks cks iks,
      [/\ d_matpower s0 = [seq (k, init) | k <- mks], d_cholesky s0 = [seq (k, init) | k <- cks],
          d_cholinv s0 = [seq (k, init) | k <- iks]
        & [/\ uniq mks, uniq cks, uniq iks &
          [/\ forall k, (k \in mks) = has (is_mp k) regs, forall k, (k \in cks) = has (is_ch k) regs
            & forall k, (k \in iks) = has (is_ci k) regs]]]].
Proof.
rewrite /finalize; have := register_inv regs (dense_init F n).
set s := foldl _ _ _ => -[[e1 e2 e3 e4 e5]] [[h1 h2 h3]] /(_ isT isT isT) [u1 u2 u3].
rewrite /instantiate_inv_variables e2 e3 e4 /= !(eq_has (a2 := pred0)) ?has_pred0 //=.
rewrite /make_inverse_update_ops /use_eig /= e5 /=.
set mp := [seq (k, init) | k <- _].
case: ifP => hu /=.
  exists [:: [seq AssignMatpowerEig p.1.1 p.1.2 | p <- mp]].
  do 2 eexists; split; first by reflexivity.
  - by [].
  - by left.
  - by rewrite e1.
  - by exists (d_matpower_regs s), (d_cholesky_regs s), (d_cholinv_regs s); split=> //; split=> //; split.
have ha : all (fun p => p.1.1 == -1) mp.
  move: hu => /negbT; rewrite negb_or -ltnNge ltnS leqn0 subn_eq0 => /andP[hs _].
  by rewrite all_count eqn_leq count_size.
rewrite ha; exists [seq [:: AssignInverse F p.1.2] | p <- mp].
do 2 eexists; split; first by reflexivity.
- by [].
- by right.
- by rewrite e1.
- by exists (d_matpower_regs s), (d_cholesky_regs s), (d_cholinv_regs s); split=> //; split=> //; split.
Qed.
End Lifecycle.
