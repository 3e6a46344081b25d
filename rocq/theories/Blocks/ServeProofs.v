From mathcomp Require Import all_ssreflect all_algebra.
From Verif.Base Require Import Py.
From Verif.Blocks Require Import Model Spec MatProofs PsdProofs EigProofs FactorProofs.
Set Implicit Arguments.
Unset Strict Implicit.
Unset Printing Implicit Defensive.
Import GRing.Theory Num.Theory Order.TTheory.
Local Open Scope ring_scope.

Section Serve.
Variable F : rcfType.
Variable eigh : forall n, 'M[F]_n -> 'rV[F]_n * 'M[F]_n.
Variable pow : F -> F -> F.
Hypothesis eighP : eigh_contract eigh.
Hypothesis powP : power_laws pow.
Variables (n th : nat) (clip : F) (meth : posdef_inv_method) (init : 'M[F]_n).
Hypothesis clip0 : clip <= 0.
Notation run := (run eigh pow clip meth).

Lemma In_has (P : pred (registration F)) r regs : List.In r regs -> P r -> has P regs.
Proof.
elim: regs => //= r' regs IH [->|h] hp; first by rewrite hp.
by rewrite IH ?orbT.
Qed.

Let Wm := @wr_mp F eigh pow n clip meth.
Lemma WmS d c d' c' key a : isSome (Wm d c key a) = isSome (Wm d' c' key a).
Proof. by case: a => //= *; case: ifP. Qed.
Lemma WcS d c d' c' key a : isSome (@wr_ch F n d c key a) = isSome (@wr_ch F n d' c' key a).
Proof. by case: a => //= *; case: ifP. Qed.
Lemma WiS d c d' c' key a : isSome (@wr_ci F n d c key a) = isSome (@wr_ci F n d' c' key a).
Proof. by case: a => //= *; case: ifP. Qed.

Lemma finalize_total regs : exists ops s0, finalize th init regs = Ok (ops, s0).
Proof. by have [mp [ops [s0 [h *]]]] := finalize_shape th init regs; exists ops, s0. Qed.

Section Final.
Variables (regs : seq (registration F)) (ops : seq (seq (assignment F))) (s0 : dense F n).
Hypothesis fin : finalize th init regs = Ok (ops, s0).

Lemma init_cov : d_cov s0 = 0.
Proof. by have [mp [o [s [h _ _ h1 _]]]] := finalize_shape th init regs; move: h; rewrite fin => -[_ ->]. Qed.

Lemma mp_covers key : has (is_mp key) regs ->
  dict_get (d_matpower s0) key = Some init /\ covers (writes Wm key) ops.
Proof.
move=> hk; have [mp [o [s [h ho hm _ [mks [cks [iks [e1 e2 e3 [u1 u2 u3 [m1 m2 m3]]]]]]]]]] :=
  finalize_shape th init regs.
move: h; rewrite fin => -[eo es]; rewrite -{}eo -{}es in ho hm e1 e2 e3.
split; first by rewrite e1 dict_get_map m1 hk.
rewrite ho; apply: covers_catl => //; last first.
  rewrite has_cat; apply/negP => /orP[] /(has_nthP [::]) [j];
    rewrite size_map => hj.
  - case: (d_cholinv s0) hj => // p0 l0 hj; rewrite (nth_map p0) //.
    by case: ifP.
  - case: (filter _ _) hj => // p0 l0 hj; rewrite (nth_map p0) //.
case: hm => [->|[ha ->]].
- exists 0%N; split=> //=; last by move=> [|[|j]].
  rewrite /writes has_map; apply/hasP; exists (key, init).
    by rewrite e1 map_f // m1.
  by rewrite /= -surjective_pairing eqxx.
- rewrite e1 -map_comp.
  apply: (@covers_map _ _ _ _ _ key) => //; first by rewrite m1.
  move=> x hx; rewrite /writes /= orbF.
  have hx1 : x.1 = -1.
    by move: ha; rewrite e1 all_map => /allP /(_ x hx) /= /eqP.
  by rewrite -hx1 -surjective_pairing eq_sym; case: eqP.
Qed.

Lemma ch_covers key : has (is_ch key) regs ->
  dict_get (d_cholesky s0) key = Some init /\ covers (writes (@wr_ch F n) key) ops.
Proof.
move=> hk; have [mp [o [s [h ho hm _ [mks [cks [iks [e1 e2 e3 [u1 u2 u3 [m1 m2 m3]]]]]]]]]] :=
  finalize_shape th init regs.
move: h; rewrite fin => -[eo es]; rewrite -{}eo -{}es in ho hm e1 e2 e3.
have hd : dict_get (d_cholesky s0) key = Some init by rewrite e2 dict_get_map m2 hk.
split=> //; rewrite ho; apply: covers_catr => //.
  case: hm => [->|[_ ->]].
  - rewrite /= orbF /writes has_map; apply/negP => /hasP [] //.
  - apply/negP => /(has_nthP [::]) [j]; rewrite size_map => hj.
    by case: (d_matpower s0) hj => // p0 l0 hj; rewrite (nth_map p0).
case hi : (key \in iks).
- apply: covers_catl => //; last first.
    apply/negP => /(has_nthP [::]) [j]; rewrite size_map => hj.
    case ef : (filter _ _) hj => [//|p0 l0] hj; rewrite (nth_map p0) //.
    have := mem_nth p0 hj; rewrite -{2}ef mem_filter e3 dict_get_map => /andP[h1 _].
    rewrite /writes /= orbF; case: eqP => // e; move: h1; rewrite -e hi //.
  rewrite e3 -map_comp; apply: (@covers_map _ _ _ _ _ key) => // x hx /=.
  rewrite /writes has_cat /= orbF; case: ifP => /=; rewrite ?orbF ?[key == x]eq_sym //.
  by case: eqP.
  case: eqP => // ->; by rewrite hd.
- apply: covers_catr => //.
    apply/negP => /(has_nthP [::]) [j]; rewrite size_map => hj.
    case ef : (d_cholinv s0) hj => [//|p0 l0] hj; rewrite (nth_map p0) //.
    have := mem_nth p0 hj; rewrite -ef e3 => /mapP [x hx ex].
    rewrite /writes has_cat /= orbF; case: ifP => //= _; rewrite orbF ex /=.
    by case: eqP => // e; move: hx; rewrite -e hi.
  rewrite e2 filter_map -map_comp.
  apply: (@covers_map _ _ _ _ _ key) => //; first by rewrite filter_uniq.
  + by rewrite mem_filter m2 hk andbT /= e3 dict_get_map hi.
  + by move=> x _; rewrite /writes /= orbF eq_sym; case: eqP.
Qed.

Lemma ci_covers key : has (is_ci key) regs ->
  dict_get (d_cholinv s0) key = Some init /\ covers (writes (@wr_ci F n) key) ops.
Proof.
move=> hk; have [mp [o [s [h ho hm _ [mks [cks [iks [e1 e2 e3 [u1 u2 u3 [m1 m2 m3]]]]]]]]]] :=
  finalize_shape th init regs.
move: h; rewrite fin => -[eo es]; rewrite -{}eo -{}es in ho hm e1 e2 e3.
have hd : dict_get (d_cholinv s0) key = Some init by rewrite e3 dict_get_map m3 hk.
split=> //; rewrite ho; apply: covers_catr => //.
  case: hm => [->|[_ ->]].
  - rewrite /= orbF /writes has_map; apply/negP => /hasP [] //.
  - apply/negP => /(has_nthP [::]) [j]; rewrite size_map => hj.
    by case: (d_matpower s0) hj => // p0 l0 hj; rewrite (nth_map p0).
apply: covers_catl => //; last first.
  apply/negP => /(has_nthP [::]) [j]; rewrite size_map => hj.
  by case ef : (filter _ _) hj => [//|p0 l0] hj; rewrite (nth_map p0) //.
rewrite e3 -map_comp; apply: (@covers_map _ _ _ _ _ key) => //; first by rewrite m3.
move=> x hx /=; rewrite /writes has_cat /= orbF [x == key]eq_sym.
by case: ifP => /= _; case: ifP => //; case: eqP.
Qed.

Lemma served_matpower ex id : List.In (RegMatpower ex id) regs -> ex <> 1 ->
  exists k, (k < size ops)%N /\
   (forall pre damp post, ~ runs k post -> psd (cov_after 0 pre) -> 0 < damp id ->
     forall damp', exists P,
       get_matpower (run ops s0 (pre ++ RunOp n k damp :: post)) damp' ex id = Ok (FullMatrix P) /\
       is_matpower pow (cov_after 0 pre + damp id *: 1%:M) ex P) /\
   (forall l damp', ~ runs k l -> get_matpower (run ops s0 l) damp' ex id = Ok (FullMatrix init)).
Proof.
move=> hr /eqP ne; have hk : has (is_mp (ex, id)) regs by apply: In_has hr _; rewrite /= ne eqxx.
have [h0 [k [hk1 hk2 hk3]]] := mp_covers hk; exists k; split=> //.
have := @served_generic F eigh pow n _ (@d_matpower F n) Wm clip meth
  (fun damp s a key => ra_mp eigh pow clip meth damp s a key) (fun s c => erefl) WmS ops s0 k (ex, id) init
  (fun c damp x => psd c -> 0 < damp id -> is_matpower pow (c + damp id *: 1%:M) ex x) h0 hk2 hk3.
rewrite init_cov => -[|h1 h2].
  move=> c damp [e i|i|//|//] x /=; case: eqP => // -[-> ->] [<-] hc hd.
  - exact: eig_power.
  - by rewrite posdef_invE //; apply: matpower_inv => //; exact: psd_damped.
split=> [pre damp post hp hc hd damp'|l damp' hl]; rewrite /get_matpower ne.
  by have [P [-> hP]] := h1 pre damp post hp; exists P; split=> //; apply: hP.
by rewrite (h2 l hl).
Qed.

Lemma served_cholesky id : List.In (RegCholesky F id) regs ->
  exists k, (k < size ops)%N /\
   (forall pre damp post, ~ runs k post -> psd (cov_after 0 pre) -> 0 < damp id ->
     exists L,
       get_cholesky (run ops s0 (pre ++ RunOp n k damp :: post)) id = Ok (FullMatrix L) /\
       [/\ L *m L^T = cov_after 0 pre + damp id *: 1%:M, forall i j : 'I_n, (i < j)%N -> L i j = 0
         & forall i, 0 < L i i]) /\
   (forall l, ~ runs k l -> get_cholesky (run ops s0 l) id = Ok (FullMatrix init)).
Proof.
move=> hr; have hk : has (is_ch id) regs by apply: In_has hr _; rewrite /= eqxx.
have [h0 [k [hk1 hk2 hk3]]] := ch_covers hk; exists k; split=> //.
have := @served_generic F eigh pow n _ (@d_cholesky F n) _ clip meth
  (fun damp s a key => ra_ch eigh pow clip meth damp s a key) (fun s c => erefl) WcS ops s0 k id init
  (fun c damp L => psd c -> 0 < damp id ->
     [/\ L *m L^T = c + damp id *: 1%:M, forall i j : 'I_n, (i < j)%N -> L i j = 0
         & forall i, 0 < L i i]) h0 hk2 hk3.
rewrite init_cov => -[|h1 h2].
  move=> c damp [e i|i|i|i] x //=; case: eqP => // -> [<-] hc hd.
  by case: (chol_correct (psd_damped hc hd)).
split=> [pre damp post hp hc hd|l hl]; rewrite /get_cholesky.
  by have [P [-> hP]] := h1 pre damp post hp; exists P; split=> //; apply: hP.
by rewrite (h2 l hl).
Qed.

Lemma served_cholinv id : List.In (RegCholeskyInverse F id) regs ->
  exists k, (k < size ops)%N /\
   (forall pre damp post, ~ runs k post -> psd (cov_after 0 pre) -> 0 < damp id ->
     exists L J,
       get_cholesky_inverse (run ops s0 (pre ++ RunOp n k damp :: post)) id = Ok (FullMatrix J) /\
       J *m L = 1%:M /\
       [/\ L *m L^T = cov_after 0 pre + damp id *: 1%:M, forall i j : 'I_n, (i < j)%N -> L i j = 0
         & forall i, 0 < L i i]) /\
   (forall l, ~ runs k l -> get_cholesky_inverse (run ops s0 l) id = Ok (FullMatrix init)).
Proof.
move=> hr; have hk : has (is_ci id) regs by apply: In_has hr _; rewrite /= eqxx.
have [h0 [k [hk1 hk2 hk3]]] := ci_covers hk; exists k; split=> //.
have := @served_generic F eigh pow n _ (@d_cholinv F n) _ clip meth
  (fun damp s a key => ra_ci eigh pow clip meth damp s a key) (fun s c => erefl) WiS ops s0 k id init
  (fun c damp J => psd c -> 0 < damp id -> exists L, J *m L = 1%:M /\
     [/\ L *m L^T = c + damp id *: 1%:M, forall i j : 'I_n, (i < j)%N -> L i j = 0
         & forall i, 0 < L i i]) h0 hk2 hk3.
rewrite init_cov => -[|h1 h2].
  move=> c damp [e i|i|i|i] x //=; case: eqP => // -> [<-] hc hd.
  exists (cholesky c (damp i)); have [g1 g2 g3 g4] := chol_correct (psd_damped hc hd).
  by split=> //; rewrite /triangular_solve mulmx1 mulVmx.
split=> [pre damp post hp hc hd|l hl]; rewrite /get_cholesky_inverse.
  have [J [-> hP]] := h1 pre damp post hp; have [L hL] := hP hc hd.
  by exists L, J.
by rewrite (h2 l hl).
Qed.

Lemma served_one l damp' id :
  get_matpower (run ops s0 l) damp' 1 id = Ok (FullMatrix (cov_after 0 l + damp' id *: 1%:M)).
Proof. by rewrite /get_matpower eqxx /= run_cov init_cov. Qed.

Lemma dict_quiet (K : eqType) (D : dense F n -> seq (K * 'M[F]_n)) W key :
  (forall damp s a key, dict_get (D (run_assignment eigh pow clip meth damp s a)) key =
     omap (fun v => odflt v (W damp (d_cov s) key a)) (dict_get (D s) key)) ->
  (forall s c, D (set_cov s c) = D s) ->
  forall l s, dict_get (D s) key = None -> dict_get (D (run ops s l)) key = None.
Proof.
move=> hra hset; rewrite /Model.run; elim=> [//|e l IH] s h; apply: IH; case: e => [c|k d] /=.
  by rewrite hset.
by rewrite (ro_D hra) h.
Qed.

(** Nothing is served that was not registered. *)
Lemma unserved l damp' ex id :
  (ex <> 1 -> ~ List.In (RegMatpower ex id) regs ->
     get_matpower (run ops s0 l) damp' ex id = Raise KeyError) /\
  (~ List.In (RegCholesky F id) regs -> get_cholesky (run ops s0 l) id = Raise KeyError) /\
  (~ List.In (RegCholeskyInverse F id) regs ->
     get_cholesky_inverse (run ops s0 l) id = Raise KeyError).
Proof.
have [mp [o [s [h ho hm _ [mks [cks [iks [e1 e2 e3 [u1 u2 u3 [m1 m2 m3]]]]]]]]]] :=
  finalize_shape th init regs.
move: h; rewrite fin => -[eo es]; rewrite -{}eo -{}es in ho hm e1 e2 e3.
have nohas (P : pred (registration F)) : (forall r, P r -> ~ List.In r regs) -> has P regs = false.
  elim: (regs) => //= r rs IH hP; rewrite IH ?orbF.
    by apply/negP => /hP; apply; left.
  by move=> r' hr' hin; apply: (hP r' hr'); right.
split; [|split].
- move=> /eqP ne hn; rewrite /get_matpower ne.
  rewrite (dict_quiet (ra_mp eigh pow clip meth)) // e1 dict_get_map m1 nohas //.
  by case=> //= e i /andP[_ /eqP [<- <-]].
- move=> hn; rewrite /get_cholesky (dict_quiet (ra_ch eigh pow clip meth)) // e2 dict_get_map m2 nohas //.
  by case=> //= i /eqP <-.
- move=> hn; rewrite /get_cholesky_inverse (dict_quiet (ra_ci eigh pow clip meth)) // e3 dict_get_map m3 nohas //.
  by case=> //= i /eqP <-.
Qed.
End Final.
End Serve.
