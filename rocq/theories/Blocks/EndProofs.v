From mathcomp Require Import all_ssreflect all_algebra.
From Verif.Base Require Import Py.
From Verif.Blocks Require Import Model Spec MatProofs PsdProofs EigProofs FactorProofs ServeProofs BlockProofs
  StatProofs SuaProofs.
Set Implicit Arguments.
Unset Strict Implicit.
Unset Printing Implicit Defensive.
Import GRing.Theory Num.Theory Order.TTheory.
Local Open Scope ring_scope.

Section Kron.
Variable F : rcfType.
Variable eigh : forall n, 'M[F]_n -> 'rV[F]_n * 'M[F]_n.
Variable pow : F -> F -> F.
Hypothesis eighP : eigh_contract eigh.
Hypothesis powP : power_laws pow.
Variables (th : nat) (clip : F) (meth : posdef_inv_method).
Hypothesis clip0 : clip <= 0.
Notation up_to_date := (up_to_date eigh pow th clip meth).

Lemma up_to_date_exists n regs damp (C : 'M[F]_n) : exists s, up_to_date regs damp C s.
Proof.
have [ops [s0 h]] := finalize_total th (0 : 'M[F]_n) regs.
by do 5 eexists; split; [exact: h| |reflexivity]; exact: (erefl (cov_after 0 [:: NewCov C])).
Qed.

Variables (m n : nat) (b : bool) (regsA regsG : seq (registration F)) (dampA dampG : nat -> F).
Variables (A : 'M[F]_(rows m b)) (G : 'M[F]_n) (sA : dense F (rows m b)) (sG : dense F n).
Variables (ia ig : nat) (renorm : F).
Hypothesis upA : up_to_date regsA dampA A sA.
Hypothesis upG : up_to_date regsG dampG G sG.
Hypothesis hA : psd A.
Hypothesis hG : psd G.
Hypothesis pA : 0 < dampA ia.
Hypothesis pG : 0 < dampG ig.
Hypothesis pr : 0 < renorm.
Let DA := A + dampA ia *: 1%:M.
Let DG := G + dampG ig *: 1%:M.
Notation left := (fun e => get_matpower sA dampA e ia).
Notation right := (fun e => get_matpower sG dampG e ig).
Definition has_power e :=
  e = 1 \/ (List.In (RegMatpower e ia) regsA /\ List.In (RegMatpower e ig) regsG).

Lemma kron_power e (v : params F m n b) : has_power e ->
  exists w, kron_multiply_matpower pow left right renorm v e = Ok w /\
   forall cv cw K, is_column v cv -> is_column w cw -> is_kron DA DG K ->
     exists M, is_matpower pow (renorm *: K) e M /\ cw = M *m cv.
Proof.
move=> he.
have [P [e1 h1]] := current_any eighP powP clip0 upA (ex := e) (id := ia)
  ltac:(case: he => [->|[? ?]]; [by left|by right]) hA pA.
have [Q [e2 h2]] := current_any eighP powP clip0 upG (ex := e) (id := ig)
  ltac:(case: he => [->|[? ?]]; [by left|by right]) hG pG.
exact: (kron_block_power powP v (left := left) (right := right) e1 e2 pr h1 h2).
Qed.

Lemma kron_undo e e' (v : params F m n b) : has_power e -> has_power e' ->
  (e = 1 /\ e' = -1) \/ (e = -1 /\ e' = 1) ->
  exists w, kron_multiply_matpower pow left right renorm v e = Ok w /\
            kron_multiply_matpower pow left right renorm w e' = Ok v.
Proof.
move=> he he' h.
have [w [e1 h1]] := kron_power v he; have [u [e2 h2]] := kron_power w he'.
exists w; split => //; rewrite e2; congr Ok; apply: column_inj.
have hK := @is_kron_model F _ _ _ _ DA DG.
have [M [hM hcw]] := h1 _ _ _ (column_is_column v) (column_is_column w) hK.
have [M' [hM' ->]] := h2 _ _ _ (column_is_column w) (column_is_column u) hK.
rewrite hcw mulmxA.
have [hp _] := matpower_pd powP hM.
case: h => -[? ?]; subst e e'.
- by rewrite (matpower_oneE powP hM) (matpower_invE powP hM') mulVmx ?mul1mx // pd_unit.
- by rewrite (matpower_invE powP hM) (matpower_oneE powP hM') mulmxV ?mul1mx // pd_unit.
Qed.

Lemma kron_chol v : List.In (RegCholesky F ia) regsA -> List.In (RegCholesky F ig) regsG ->
  exists u w, [/\ kron_multiply_cholesky pow (get_cholesky sA ia) (get_cholesky sG ig) renorm v true = Ok u,
     kron_multiply_cholesky pow (get_cholesky sA ia) (get_cholesky sG ig) renorm u false = Ok w
   & kron_multiply_matpower (m := m) (has_bias := b) pow left right renorm v 1 = Ok w].
Proof.
move=> ra rg.
have [L [-> [hL _ _]]] := current_cholesky upA ra hA pA.
have [R [-> [hR _ _]]] := current_cholesky upG rg hG pG.
have sym : DG^T = DG by rewrite /DG linearD linearZ /= trmx1 (proj1 hG).
have [u [w [h1 h2 h3]]] := kron_cholesky powP v pr hL hR sym.
exists u, w; split => //; rewrite -h3 /kron_multiply_matpower.
by rewrite (current_one upA) (current_one upG).
Qed.
Lemma kron_cholinv v t : List.In (RegCholesky F ia) regsA -> List.In (RegCholesky F ig) regsG ->
  List.In (RegCholeskyInverse F ia) regsA -> List.In (RegCholeskyInverse F ig) regsG ->
  exists u, kron_multiply_cholesky (m := m) (has_bias := b) pow (get_cholesky sA ia) (get_cholesky sG ig) renorm v t = Ok u /\
    kron_multiply_cholesky_inverse pow (get_cholesky_inverse sA ia) (get_cholesky_inverse sG ig) renorm u t = Ok v.
Proof.
move=> ra rg ra' rg'.
have [L [-> [hL tL dL]]] := current_cholesky upA ra hA pA.
have [R [-> [hR tR dR]]] := current_cholesky upG rg hG pG.
have [L' [I [-> [hI [hL' tL' dL']]]]] := current_cholinv upA ra' hA pA.
have [R' [J [-> [hJ [hR' tR' dR']]]]] := current_cholinv upG rg' hG pG.
have eL : L' = L by apply: chol_unique => //; rewrite hL hL'.
have eR : R' = R by apply: chol_unique => //; rewrite hR hR'.
subst L' R'; exact: (kron_cholesky_inverse powP t v pr hI hJ).
Qed.
End Kron.

Section KronMore.
Variable F : rcfType.
Variable pow : F -> F -> F.
Variables (m n : nat) (b : bool).

Lemma kron_linear (left : F -> res (linop F (rows m b))) (right : F -> res (linop F n)) renorm e
   (v w u : params F m n b) a v' w' cv cw :
  kron_multiply_matpower pow left right renorm v e = Ok v' ->
  kron_multiply_matpower pow left right renorm w e = Ok w' ->
  is_column v cv -> is_column w cw -> is_column u (a *: cv + cw) ->
  exists u', kron_multiply_matpower pow left right renorm u e = Ok u' /\
   forall cv' cw', is_column v' cv' -> is_column w' cw' -> is_column u' (a *: cv' + cw').
Proof.
case el : (left e) => [l|x]; case er : (right e) => [r|y];
  rewrite /kron_multiply_matpower el ?er // => -[ev] [ew] hv hw hu.
have [v1 [e1 h1]] := kron_multiply_column pow renorm v el er.
have [w1 [e2 h2]] := kron_multiply_column pow renorm w el er.
have [u1 [e3 h3]] := kron_multiply_column pow renorm u el er.
move: e1 e2 e3; rewrite /kron_multiply_matpower el er => -[e1] -[e2] -[e3].
eexists; split; first reflexivity.
move=> cv' cw' hv' hw'; rewrite e3; subst v' w'; rewrite e1 in hv'; rewrite e2 in hw'.
have hK := @is_kron_model F _ _ _ _ (lo_dense l) (lo_dense r)^T.
rewrite (h1 _ _ _ hv hv' hK) (h2 _ _ _ hw hw' hK).
have := h3 _ _ _ hu (column_is_column u1) hK.
rewrite mulmxDr -scalemxAr scalerDr [pow _ _ *: (a *: _)]scalerA mulrC -scalerA => <-.
exact: column_is_column.
Qed.

Lemma kron_ops (l : linop F (rows m b)) (r : linop F n) renorm v e :
  (lo_dense r)^T = lo_dense r ->
  exists w, kron_multiply_matpower pow (fun=> Ok l) (fun=> Ok r) renorm v e = Ok w /\
   forall cv cw K, is_column v cv -> is_column w cw -> is_kron (lo_dense l) (lo_dense r) K ->
     cw = pow renorm e *: (K *m cv).
Proof.
move=> sym.
have [w [h1 h2]] := @kron_multiply_column F pow m n b l r (fun=> Ok l) (fun=> Ok r) renorm v e erefl erefl.
by exists w; split => // cv cw K hv hw hK; apply: h2 => //; rewrite sym.
Qed.

Lemma kron_block_matrix (A : 'M[F]_(rows m b)) (G : 'M[F]_n) renorm K : is_kron A G K ->
  kron_full_fisher_block (FullMatrix A) (FullMatrix G) renorm = renorm *: K.
Proof. by move=> /is_kron_unique ->. Qed.
End KronMore.

Section FullEnd.
Variable F : rcfType.
Variable eigh : forall n, 'M[F]_n -> 'rV[F]_n * 'M[F]_n.
Variable pow : F -> F -> F.
Hypothesis eighP : eigh_contract eigh.
Hypothesis powP : power_laws pow.
Variables (th : nat) (clip : F) (meth : posdef_inv_method).
Hypothesis clip0 : clip <= 0.
Variables (m n : nat) (b : bool) (regs : seq (registration F)) (damp : nat -> F).
Variables (C : 'M[F]_(rows m b * n)) (s : dense F (rows m b * n)) (id : nat).
Hypothesis up : up_to_date eigh pow th clip meth regs damp C s.
Hypothesis hC : psd C.
Hypothesis pd : 0 < damp id.

Lemma full_chol (v : params F m n b) : List.In (RegCholesky F id) regs ->
  exists u w, [/\ full_multiply (get_cholesky s id) v true = Ok u,
     full_multiply (get_cholesky s id) u false = Ok w
   & full_multiply (get_matpower s damp 1 id) v false = Ok w].
Proof.
move=> r; have [L [-> [hL _ _]]] := current_cholesky up r hC pd.
by rewrite (current_one up); apply: full_cholesky.
Qed.
Lemma full_cholinv t (v : params F m n b) : List.In (RegCholesky F id) regs ->
  List.In (RegCholeskyInverse F id) regs ->
  exists u, full_multiply (get_cholesky s id) v t = Ok u /\
            full_multiply (get_cholesky_inverse s id) u t = Ok v.
Proof.
move=> r r'; have [L [-> [hL tL dL]]] := current_cholesky up r hC pd.
have [L' [J [-> [hJ [hL' tL' dL']]]]] := current_cholinv up r' hC pd.
have eL : L' = L by apply: chol_unique => //; rewrite hL hL'.
by subst L'; apply: full_cholesky_inverse.
Qed.
Lemma full_power e (v : params F m n b) : e = 1 \/ List.In (RegMatpower e id) regs ->
  exists w, full_multiply (get_matpower s damp e id) v false = Ok w /\
   forall cv cw, is_column v cv -> is_column w cw ->
    exists P, is_matpower pow (C + damp id *: 1%:M) e P /\ cw = P *m cv.
Proof.
move=> he; have [P [-> hP]] := current_any eighP powP clip0 up he hC pd.
eexists; split; first reflexivity.
move=> cv cw /is_column_unique -> /is_column_unique ->; exists P; split => //.
by rewrite full_column.
Qed.
End FullEnd.

Section Towers.
Variable F : rcfType.

Lemma single_towerE S m n (c : nat -> 'M[F]_(m, n)) :
  compute_total_new_cov 1 S 1 (fun _ s _ => c s) = \sum_(s < S) c s.
Proof.
rewrite /compute_total_new_cov big_ord1 !invr1 !scale1r; apply: eq_bigr => s _.
by rewrite big_ord1.
Qed.

Lemma towers_avg X m n (stat : seq X -> 'M[F]_(m, n)) f R S T (data : nat -> nat -> nat -> seq X) b :
  (forall r s t, (r < R)%N -> (s < S)%N -> (t < T)%N -> size (data r s t) = b) ->
  (forall l, stat l = avg f l) ->
  compute_total_new_cov R S T (fun r s t => stat (data r s t)) =
  compute_total_new_cov 1 S 1 (fun _ s _ => stat (all_data R T (fun r t => data r s t))).
Proof.
move=> hb hs; rewrite single_towerE.
rewrite (@total_ext F R S T m n _ (fun r s t => avg f (data r s t))) => [|r s t]; last exact: hs.
by rewrite (total_avg f hb); apply: eq_bigr => s _; rewrite hs.
Qed.

Lemma fc_avg n rows : @fc_new_cov F n rows = avg (fun x => x^T *m x) rows.
Proof. exact: compute_covE. Qed.
Lemma fcb_avg n rows : @fc_new_cov_bias F n rows =
  avg (fun x => (append_homog x)^T *m append_homog x) rows.
Proof. by rewrite /fc_new_cov_bias compute_covE avg_map. Qed.
Lemma diagkron_avg n rows : @diagkron_new_cov F n rows = avg (@square_row F n) rows.
Proof. by []. Qed.
Lemma fcdiag_avg m n l : @fcdiag_new_cov F m n l = avg (fun e => (square_row e.1)^T *m square_row e.2) l.
Proof. by []. Qed.
Lemma fcdiagb_avg m n l : @fcdiag_new_cov_bias F m n l =
  avg (fun e => (square_row (append_homog e.1))^T *m square_row e.2) l.
Proof. by rewrite /fcdiag_new_cov_bias fcdiag_avg avg_map. Qed.
Lemma convdiag_avg m n l : @convdiag_new_cov F m n l =
  avg (fun e => \matrix_(i, j) (convdiag_case_gradient e i j) ^+ 2) l.
Proof. by []. Qed.
Lemma convdiagb_avg m n l : @convdiag_new_cov_bias F m n l =
  avg (fun e => \matrix_(i, j)
     (convdiag_case_gradient [seq (append_homog l.1, l.2) | l <- e] i j) ^+ 2) l.
Proof. by rewrite /convdiag_new_cov_bias convdiag_avg avg_map. Qed.

Lemma diagkronb_avg n rows : (0 < size rows)%N ->
  @diagkron_new_cov_bias F n rows = avg (fun x => append_homog (square_row x)) rows.
Proof.
move=> h; rewrite /diagkron_new_cov_bias diagkron_avg /avg /append_homog.
have nz : (size rows)%:R != 0 :> F by rewrite pnatr_eq0 -lt0n.
have -> : \sum_(x <- rows) row_mx (square_row x) 1%:M =
   row_mx (\sum_(x <- rows) square_row x) ((size rows)%:R *: (1%:M : 'M[F]_1)).
  elim: rows {h nz} => [|x l IH]; first by rewrite !big_nil scale0r row_mx0.
  by rewrite !big_cons IH add_row_mx /= mulrSr scalerDl scale1r [_ + 1%:M]addrC.
by rewrite scale_row_mx scalerA mulVf // scale1r.
Qed.

(** Convolutional inputs: examples made of the same number of locations. *)
Lemma conv_avg n (l : seq (seq 'rV[F]_n)) k : (forall e, List.In e l -> size e = k) ->
  convin_new_cov l = avg (avg (fun x => x^T *m x)) l.
Proof. by move=> h; rewrite /convin_new_cov compute_covE (avg_flatten _ h). Qed.

Lemma In_flatten X (x : X) ls : List.In x (flatten ls) -> exists l, List.In l ls /\ List.In x l.
Proof.
elim: ls => //= l ls IH h.
have [h1|/IH [l' [h1 h2]]] := @List.in_app_or _ l (flatten ls) x h; first by exists l; split; [left|].
by exists l'; split; [right|].
Qed.
Lemma In_all_data X (x : X) R T data : List.In x (all_data R T data) ->
  exists r t, [/\ (r < R)%N, (t < T)%N & List.In x (data r t)].
Proof.
move=> h0; have [l [h hx]] := @In_flatten _ x _ h0.
have [r [hr er]] := @In_iota_map _ _ _ _ h.
have hx' : List.In x (flatten [seq data r t | t <- iota 0 T]) by rewrite -er.
have [l' [h' hx2]] := @In_flatten _ x _ hx'; have [t [ht et]] := @In_iota_map _ _ _ _ h'.
by exists r, t; split => //; rewrite -et.
Qed.
Lemma towers_conv n R S T (data : nat -> nat -> nat -> seq (seq 'rV[F]_n)) b k :
  (forall r s t, (r < R)%N -> (s < S)%N -> (t < T)%N ->
     size (data r s t) = b /\ forall e, List.In e (data r s t) -> size e = k) ->
  compute_total_new_cov R S T (fun r s t => convin_new_cov (data r s t)) =
  compute_total_new_cov 1 S 1 (fun _ s _ => convin_new_cov (all_data R T (fun r t => data r s t))).
Proof.
move=> h; rewrite single_towerE.
transitivity (compute_total_new_cov R S T (fun r s t => avg (avg (fun x : 'rV[F]_n => x^T *m x)) (data r s t))).
  rewrite /compute_total_new_cov; congr (_ *: _); apply: eq_bigr => r _; congr (_ *: _).
  apply: eq_bigr => s _; apply: eq_bigr => t _.
  by apply: (conv_avg (k := k)) => e; apply: (proj2 (h r s t _ _ _)).
rewrite (@total_avg F _ n n _ R S T data b) => [|r s t hr hs ht]; last exact: (proj1 (h _ _ _ hr hs ht)).
apply: eq_bigr => s _; rewrite (conv_avg (k := k)) // => e h1; have [r [t [hr ht he]]] := @In_all_data _ e _ _ _ h1.
exact: (proj2 (h _ _ _ hr (ltn_ord s) ht)).
Qed.

Lemma size_all_data X R T (data : nat -> nat -> seq X) b :
  (forall r t, (r < R)%N -> (t < T)%N -> size (data r t) = b) -> size (all_data R T data) = (R * (T * b))%N.
Proof.
move=> h; rewrite /all_data (@size_flatten_eq _ _ (T * b)) ?size_map ?size_iota // => l hl.
have [r [hr ->]] := In_iota_map hl.
rewrite (@size_flatten_eq _ _ b) ?size_map ?size_iota // => l' hl'.
by have [t [ht ->]] := In_iota_map hl'; apply: h.
Qed.
Lemma towers_diagkronb n R S T (data : nat -> nat -> nat -> seq 'rV[F]_n) b :
  (0 < R)%N -> (0 < T)%N -> (0 < b)%N ->
  (forall r s t, (r < R)%N -> (s < S)%N -> (t < T)%N -> size (data r s t) = b) ->
  compute_total_new_cov R S T (fun r s t => diagkron_new_cov_bias (data r s t)) =
  compute_total_new_cov 1 S 1 (fun _ s _ => diagkron_new_cov_bias (all_data R T (fun r t => data r s t))).
Proof.
move=> hR hT hb h; rewrite single_towerE.
transitivity (compute_total_new_cov R S T (fun r s t => avg (fun x => append_homog (square_row x)) (data r s t))).
  rewrite /compute_total_new_cov; congr (_ *: _); apply: eq_bigr => r _; congr (_ *: _).
  apply: eq_bigr => s _; apply: eq_bigr => t _; rewrite diagkronb_avg //.
  by rewrite (h _ _ _ (ltn_ord r) (ltn_ord s) (ltn_ord t)).
rewrite (total_avg _ h); apply: eq_bigr => s _; rewrite diagkronb_avg //.
rewrite (@size_all_data _ _ _ _ b) ?muln_gt0 ?hR ?hT // => r t hr ht; exact: h.
Qed.
End Towers.

Section Batch.
Lemma check_sizes S T sizes :
  check_partial_batch_sizes S T sizes = Ok tt <->
  (forall i, (i < S)%N -> (i < T)%N -> sizes i i = sizes 0%N 0%N).
Proof.
have hz : forall k l s, all (fun st : nat * nat => sizes 0%N 0%N == sizes st.1 st.2) (Py.zip (iota s k) (iota s l)) <->
   (forall i, (s <= i)%N -> (i < s + k)%N -> (i < s + l)%N -> sizes i i = sizes 0%N 0%N).
  elim=> [|k IH] [|l] s /=.
  - by split=> // _ i h1 h2; exfalso; move: h2; rewrite addn0 ltnNge h1.
  - by split=> // _ i h1 h2; exfalso; move: h2; rewrite addn0 ltnNge h1.
  - by split=> // _ i h1 _ h2; exfalso; move: h2; rewrite addn0 ltnNge h1.
  split.
  - move=> /andP [/eqP e /IH h] i; rewrite leq_eqVlt => /orP [/eqP <- //|h1] h2 h3.
    by apply: h => //; rewrite addSnnS.
  - move=> h; apply/andP; split; first by apply/eqP; rewrite h // addnS ltnS leq_addr.
    by apply/IH => i h1 h2 h3; apply: h; rewrite ?(ltnW h1) // -addSnnS.
rewrite /check_partial_batch_sizes.
case: ifP => [hgt|hle].
- have := hz S T 0%N; case: ifP => ha [h1 h2]; split=> // h.
  + by move=> i; apply: h1.
  + by have := h2 (fun i _ => h i).
- split=> // _ i hS hT; case: i hS hT => // i hS _.
  by move: hle; rewrite (leq_ltn_trans _ hS).
Qed.

Lemma foldl_check (X : Type) (f : X -> res unit) l acc :
  foldl (fun acc x => match acc with Ok _ => f x | e => e end) acc l = Ok tt <->
  (acc = Ok tt /\ forall x, List.In x l -> f x = Ok tt).
Proof.
elim: l acc => [|x l IH] acc /=; first by split=> [->|[]].
rewrite IH; split.
- case: acc => [[]|e] [h1 h2]; last by [].
  by split=> // y [<-|hy] //; apply: h2.
- move=> [-> h]; split; first by apply: h; left.
  by move=> y hy; apply: h; right.
Qed.
Lemma check_all_spec bs first fs :
  check_all_batch_sizes bs (first :: fs) = Ok tt <->
  forall f, List.In f (first :: fs) ->
    (\sum_(t < b_towers f) b_sizes f 0 t =
      (if bs is Some k then k else \sum_(t < b_towers first) b_sizes first 0 t))%N /\
    forall i, (i < b_sources f)%N -> (i < b_towers f)%N -> b_sizes f i i = b_sizes f 0%N 0%N.
Proof.
have hc f : check_batch_sizes bs first f = Ok tt <->
    ((\sum_(t < b_towers f) b_sizes f 0 t =
      (if bs is Some k then k else \sum_(t < b_towers first) b_sizes first 0 t))%N /\
    forall i, (i < b_sources f)%N -> (i < b_towers f)%N -> b_sizes f i i = b_sizes f 0%N 0%N).
  rewrite /check_batch_sizes -check_sizes /factor_batch_size.
  case: eqP => [e|ne] /=; last by split=> // -[e _]; case: ne; rewrite e.
  by split=> [h|[_ h]] //; split=> //; rewrite e.
have fc := @foldl_check _ (check_batch_sizes bs first) (first :: fs) (Ok tt).
apply: (iff_trans fc).
split=> [[_ h] f hf|h]; first by move: (h f hf) => /hc.
by split=> // f hf; apply/hc; exact: h.
Qed.
End Batch.

Section Histories.
Variable F : rcfType.
Lemma history_psd X n normalize (stat : X -> 'M[F]_n) R S T updates :
  (forall x, psd (stat x)) ->
  List.Forall (fun u : (nat -> nat -> nat -> X) * (F * F) => 0 <= u.2.1 /\ 0 <= u.2.2) updates ->
  psd (covariance_after normalize stat R S T updates).
Proof.
move=> hs hu.
have := @mav_psd F normalize n [seq (compute_total_new_cov R S T (fun r s t => stat (u.1 r s t)), u.2) | u <- updates].
have -> : covariance_after normalize stat R S T updates =
  mav_value normalize (foldl (fun a u => mav_add a u.1 u.2.1 u.2.2) (mav_init F n n)
    [seq (compute_total_new_cov R S T (fun r s t => stat (u.1 r s t)), u.2) | u <- updates]).
  rewrite /covariance_after; congr mav_value.
  by elim: updates {hu} (mav_init F n n) => //= u l IH a; apply: IH.
apply; apply/List.Forall_map; apply: List.Forall_impl hu => u [h1 h2] /=.
by split=> //; apply: total_psd.
Qed.
Lemma history_ge0 X m n normalize (stat : X -> 'M[F]_(m, n)) R S T updates :
  (forall x i j, 0 <= stat x i j) ->
  List.Forall (fun u : (nat -> nat -> nat -> X) * (F * F) => 0 <= u.2.1 /\ 0 <= u.2.2) updates ->
  forall i j, 0 <= covariance_after normalize stat R S T updates i j.
Proof.
move=> hs hu i j; rewrite /covariance_after.
have gen : forall a : mav F m n, 0 <= m_var a i j -> 0 <= m_weight a ->
  0 <= mav_value normalize (foldl (fun a u => mav_add a (compute_total_new_cov R S T
         (fun r s t => stat (u.1 r s t))) u.2.1 u.2.2) a updates) i j.
  elim: hu => [|u l [h1 h2] _ IH] a ha hw /=.
    by rewrite /mav_value; case: normalize => //; rewrite mxE mulr_ge0 // invr_ge0.
  apply: IH => /=.
  - rewrite !mxE addr_ge0 // mulr_ge0 // mulr_ge0 ?invr_ge0 ?ler0n //.
    rewrite summxE sumr_ge0 // => r _; rewrite mxE mulr_ge0 ?invr_ge0 ?ler0n //.
    rewrite summxE sumr_ge0 // => s _; rewrite summxE sumr_ge0 // => t _; exact: hs.
  - by rewrite addr_ge0 // mulr_ge0.
by apply: gen; rewrite /= ?mxE.
Qed.

Lemma fc_psd n l : psd (@fc_new_cov F n l). Proof. exact: compute_cov_psd. Qed.
Lemma fcb_psd n l : psd (@fc_new_cov_bias F n l). Proof. exact: compute_cov_psd. Qed.
Lemma conv_psd n l : psd (@convin_new_cov F n l). Proof. exact: compute_cov_psd. Qed.
Lemma naive_psd n (x : 'rV[F]_n * F) : 0 <= x.2 -> psd (naivefull_new_cov x.1 x.2).
Proof. by move=> h; apply: psdZ; [rewrite invr_ge0|exact: psd_outer]. Qed.
Lemma square_ge0 n (x : 'rV[F]_n) i j : 0 <= square_row x i j.
Proof. by rewrite mxE sqr_ge0. Qed.
Lemma diagkron_ge0 n l i j : 0 <= @diagkron_new_cov F n l i j.
Proof. by rewrite mxE mulr_ge0 ?invr_ge0 ?ler0n // summxE sumr_ge0 // => x _; exact: square_ge0. Qed.
Lemma diagkronb_ge0 n l i j : 0 <= @diagkron_new_cov_bias F n l i j.
Proof.
rewrite /diagkron_new_cov_bias /append_homog mxE; case: splitP => k _; first exact: diagkron_ge0.
by rewrite mxE ler0n.
Qed.
Lemma fcdiag_ge0 m n l i j : 0 <= @fcdiag_new_cov F m n l i j.
Proof.
rewrite mxE mulr_ge0 ?invr_ge0 ?ler0n // summxE sumr_ge0 // => x _.
by rewrite mxE sumr_ge0 // => k _; rewrite mulr_ge0 ?square_ge0 // mxE square_ge0.
Qed.
Lemma convdiag_ge0 m n l i j : 0 <= @convdiag_new_cov F m n l i j.
Proof.
rewrite mxE mulr_ge0 ?invr_ge0 ?ler0n // summxE sumr_ge0 // => x _.
by rewrite mxE sqr_ge0.
Qed.
(** The moving average's weight and the means: the lower right corner of the second moment
    of rows extended by 1. *)
Lemma damped_pd n (C : 'M[F]_n) d : psd C -> 0 < d -> pd (C + d *: 1%:M) /\ (C + d *: 1%:M) \in unitmx.
Proof. by move=> h p; have := psd_damped h p; split => //; apply: pd_unit. Qed.
End Histories.

Section SuaCov.
Variable F : rcfType.
Variable c : nat.
Lemma drZ a (S : 'M[F]_(c + 1)) : drsubmx (a *: S) = a *: drsubmx S.
Proof. by apply/matrixP => i j; rewrite !mxE. Qed.
Lemma dr_sum I (l : seq I) (f : I -> 'M[F]_(c + 1)) :
  drsubmx (\sum_(x <- l) f x) = \sum_(x <- l) drsubmx (f x).
Proof. by apply/matrixP => i j; rewrite !mxE !summxE; apply: eq_bigr => x _; rewrite !mxE. Qed.
Lemma fcb_corner (l : seq 'rV[F]_c) : (0 < size l)%N -> drsubmx (fc_new_cov_bias l) = 1%:M.
Proof.
move=> h; rewrite fcb_avg /avg; have nz : (size l)%:R != 0 :> F by rewrite pnatr_eq0 -lt0n.
rewrite drZ dr_sum.
transitivity ((size l)%:R^-1 *: \sum_(x <- l) (1%:M : 'M[F]_1)).
  by congr (_ *: _); apply: eq_bigr => x _; rewrite tr_row_mx mul_col_row block_mxKdr trmx1 mulmx1.
by rewrite big_const_seq count_predT iter_addr_0 -scaler_nat scalerA mulVf // scale1r.
Qed.
Lemma sum_one k : \sum_(i < k) (1%:M : 'M[F]_1) = k%:R *: 1%:M.
Proof. by rewrite sumr_const card_ord scaler_nat. Qed.
Lemma total_corner R T (data : nat -> nat -> seq 'rV[F]_c) : (0 < R)%N -> (0 < T)%N ->
  (forall r t, (r < R)%N -> (t < T)%N -> (0 < size (data r t))%N) ->
  drsubmx (compute_total_new_cov R 1 T (fun r _ t => fc_new_cov_bias (data r t))) = 1%:M.
Proof.
move=> hR hT h; rewrite /compute_total_new_cov drZ dr_sum.
have nR : R%:R != 0 :> F by rewrite pnatr_eq0 -lt0n.
have nT : T%:R != 0 :> F by rewrite pnatr_eq0 -lt0n.
transitivity (R%:R^-1 *: \sum_(r < R) (1%:M : 'M[F]_1)).
  congr (_ *: _); apply: eq_bigr => r _; rewrite big_ord1 drZ dr_sum.
  transitivity (T%:R^-1 *: \sum_(t < T) (1%:M : 'M[F]_1)).
    by congr (_ *: _); apply: eq_bigr => t _; apply: fcb_corner; apply: h.
  by rewrite sum_one scalerA mulVf // scale1r.
by rewrite sum_one scalerA mulVf // scale1r.
Qed.
Lemma ul_psd (S : 'M[F]_(c + 1)) : psd S -> psd (ulsubmx S).
Proof.
move=> [h1 h2]; split; first by rewrite trmx_ulsub h1.
move=> x; have := h2 (col_mx x 0); rewrite -{1}[S]submxK tr_col_mx mul_row_block mul_row_col.
by rewrite trmx0 mulmx0 !mul0mx !addr0.
Qed.
Lemma sua_history normalize zm sm R T updates : (0 < R)%N -> (0 < T)%N ->
  List.Forall (fun u : (nat -> nat -> seq 'rV[F]_c) * (F * F) =>
     [/\ forall r t, (r < R)%N -> (t < T)%N -> (0 < size (u.1 r t))%N, 0 <= u.2.1 & 0 <= u.2.2]) updates ->
  psd (sua_covariance_after normalize zm sm R T updates).
Proof.
move=> hR hT hu.
pose g (u : (nat -> nat -> seq 'rV[F]_c) * (F * F)) := (sua_new_cov zm sm (compute_total_new_cov R 1 T
                      (fun r _ t => fc_new_cov_bias (u.1 r t))), u.2).
have -> : sua_covariance_after normalize zm sm R T updates =
  mav_value normalize (foldl (fun a u => mav_add a u.1 u.2.1 u.2.2) (mav_init F c c) [seq g u | u <- updates]).
  rewrite /sua_covariance_after; congr mav_value.
  by elim: updates {hu} (mav_init F c c) => //= u l IH a; apply: IH.
apply: mav_psd; apply/List.Forall_map; apply: List.Forall_impl hu => u [h0 h1 h2] /=.
split=> //; have hp : psd (compute_total_new_cov R 1 T (fun r _ t => fc_new_cov_bias (u.1 r t))).
  by apply: total_psd => r s t; apply: fcb_psd.
rewrite /sua_new_cov; case: ifP => _; last exact: ul_psd.
by apply: schur_mean => //; apply: total_corner.
Qed.
End SuaCov.

Section Mask.
Variable F : rcfType.
Lemma convin_mask kh kw cin mask (p : patches F) : p_depth p = (kh * kw * cin)%N ->
  exists q, convin_mask_patches kh kw cin mask p = Ok q /\ is_masked kh kw cin mask p q.
Proof.
move=> hd; rewrite /convin_mask_patches /broadcast_dim hd eqxx /=.
eexists; split; first reflexivity; split => //= b i j y x c hb hi hj hy hx hc.
have hcp : (0 < cin)%N by apply: leq_ltn_trans hc.
have hkp : (0 < kw)%N by apply: leq_ltn_trans hx.
have e1 : (((y * kw + x) * cin + c) %/ cin = y * kw + x)%N by rewrite divnMDl // divn_small // addn0.
congr (_ * _).
- congr (p_val p b i j _); rewrite /broadcast_index; case: eqP => // h1.
  move/eqP: h1; rewrite !muln_eq1 => /andP [/andP [/eqP ? /eqP ?] /eqP ?]; subst kh kw cin.
  by move: hy hx hc; rewrite !ltnS !leqn0 => /eqP -> /eqP -> /eqP ->.
- rewrite [(kw * cin)%N]mulnC divnMA e1 divnMDl // [(x %/ kw)%N]divn_small // addn0.
  by rewrite modnMDl modn_small // modnMDl modn_small.
Qed.
Lemma convdiag_mask_11 cin mask (p : patches F) : p_depth p = cin ->
  exists q, convdiag_mask_patches 1 1 cin mask p = Ok q /\ is_masked 1 1 cin mask p q.
Proof.
move=> hd; rewrite /convdiag_mask_patches /broadcast_dim !orbT hd eqxx /= !eqxx /=.
eexists; split; first reflexivity; split => //= b i j y x c hb hi hj.
rewrite !ltnS !leqn0 => /eqP -> /eqP -> hc; rewrite mul0n add0n mul0n add0n /broadcast_index /=.
by case: eqP => // e1; move: hc; rewrite e1 ltnS leqn0 => /eqP ->.
Qed.
End Mask.

Section Witness.
Variable F : rcfType.
Lemma psd_const n : psd (const_mx 1 : 'M[F]_n).
Proof.
have -> : (const_mx 1 : 'M[F]_n) = (const_mx 1 : 'rV[F]_n)^T *m const_mx 1.
  by apply/matrixP => i j; rewrite !mxE big_ord1 !mxE mulr1.
exact: psd_outer.
Qed.

Lemma unequal_towers (data := fun t => if t == 0%N then [:: 0; 0] else [:: (1%:M : 'rV[F]_1)]) :
  compute_total_new_cov 1 1 2 (fun _ _ t => fc_new_cov (data t)) <>
  compute_total_new_cov 1 1 1 (fun _ _ _ => fc_new_cov (all_data 1 2 (fun _ t => data t))).
Proof.
rewrite /compute_total_new_cov !big_ord1 !invr1 !scale1r !big_ord_recl big_ord0 addr0 /all_data /=.
rewrite !fc_avg /avg /= !big_cons !big_nil !trmx0 !mul0mx !add0r !addr0 scaler0 add0r trmx1 mulmx1 invr1 scale1r.
move=> /matrixP /(_ 0 0); rewrite !mxE eqxx !mulr1 => /eqP; rewrite (inj_eq invr_inj) eqr_nat.
by [].
Qed.

Lemma fc_aligned m n (ex : seq ('rV[F]_m * 'rV[F]_n)) (g : _ -> 'cV[F]_(rows m false * n)) :
  (forall e, is_gradient [:: e] (g e)) ->
  forall p, matrix_diagonal (fcdiag_new_cov ex) 0 p =
         (size ex)%:R^-1 * \sum_(e <- ex) (g e p 0) ^+ 2.
Proof.
move=> hg p; rewrite fcdiag_conv.
pose col (l : seq ('rV[F]_m * 'rV[F]_n)) : 'cV[F]_(rows m false * n) := vec (\sum_(x <- l) (ext false x.1)^T *m x.2).
rewrite /matrix_diagonal /convdiag_new_cov !mxE size_map; congr (_ * _).
rewrite big_map summxE; apply: eq_bigr => e _; rewrite mxE (gradient_unique (hg e)) mxE.
by rewrite /convdiag_case_gradient.
Qed.
Lemma fc_aligned_bias m n (ex : seq ('rV[F]_m * 'rV[F]_n)) (g : _ -> 'cV[F]_(rows m true * n)) :
  (forall e, is_gradient [:: e] (g e)) ->
  forall p, matrix_diagonal (fcdiag_new_cov_bias ex) 0 p =
         (size ex)%:R^-1 * \sum_(e <- ex) (g e p 0) ^+ 2.
Proof.
move=> hg p; rewrite /fcdiag_new_cov_bias fcdiag_conv.
rewrite /matrix_diagonal /convdiag_new_cov !mxE !size_map; congr (_ * _).
rewrite !big_map summxE; apply: eq_bigr => e _; rewrite mxE (gradient_unique (hg e)) mxE.
by rewrite /convdiag_case_gradient !big_seq1.
Qed.
Lemma conv_aligned m n (ex : seq (seq ('rV[F]_m * 'rV[F]_n))) (g : _ -> 'cV[F]_(rows m false * n)) :
  (forall e, is_gradient e (g e)) ->
  forall p, matrix_diagonal (convdiag_new_cov ex) 0 p =
         (size ex)%:R^-1 * \sum_(e <- ex) (g e p 0) ^+ 2.
Proof.
move=> hg p; rewrite /matrix_diagonal /convdiag_new_cov !mxE; congr (_ * _).
rewrite summxE; apply: eq_bigr => e _; rewrite mxE (gradient_unique (hg e)) mxE.
by rewrite /convdiag_case_gradient.
Qed.
Lemma conv_aligned_bias m n (ex : seq (seq ('rV[F]_m * 'rV[F]_n))) (g : _ -> 'cV[F]_(rows m true * n)) :
  (forall e, is_gradient e (g e)) ->
  forall p, matrix_diagonal (convdiag_new_cov_bias ex) 0 p =
         (size ex)%:R^-1 * \sum_(e <- ex) (g e p 0) ^+ 2.
Proof. by move=> hg p; rewrite -(convdiag_aligned ex hg p). Qed.
Lemma gradient_exists m n b :
  exists g : seq ('rV[F]_m * 'rV[F]_n) -> 'cV[F]_(rows m b * n), forall e, is_gradient e (g e).
Proof.
exists (fun e => vec (\sum_(l <- e) (ext b l.1)^T *m l.2)) => e v cv /is_column_unique ->.
rewrite mat2d_col vec_dot linear_sum mulmx_suml raddf_sum /=; apply: eq_bigr => l _.
rewrite fc_outputE -trace_mx11 -[RHS]mxtrace_tr !trmx_mul !trmxK.
by rewrite [RHS]mxtrace_mulC mulmxA.
Qed.

Lemma sua_order_refuted :
  exists (cov : 'M[F]_2) (p q : 'I_(2 * 2)) (s s' i i' : 'I_2),
    [/\ psd cov, nat_of_ord p = (s * 2 + i)%N, nat_of_ord q = (s' * 2 + i')%N, s <> s'
      & sua_cov_operator 2 true cov 0 0 p q <> 0].
Proof.
exists (const_mx 1), (inord 0), (inord 2), (inord 0), (inord 1), (inord 0), (inord 0).
split; rewrite ?inordK //.
- exact: psd_const.
- by move=> /(congr1 val); rewrite /= !inordK.
rewrite (@sua_entries F 2 2 true _ 0 0 (inord 0) (inord 1) (inord 0) (inord 0)) ?inordK //.
by rewrite mxE mul0r !addr0 eqxx mulr1; apply/eqP; exact: oner_neq0.
Qed.
Lemma sua_order_degenerate c kk (zero_mean : bool) (cov : 'M[F]_c) (mu : 'cV[F]_c) (damping : F)
         (i i' : 'I_c) (s s' : 'I_kk) (p q : 'I_(c * kk)) :
    c = 1%N \/ kk = 1%N ->
    nat_of_ord p = (s * c + i)%N -> nat_of_ord q = (s' * c + i')%N ->
    sua_cov_operator kk zero_mean cov mu damping p q =
    (cov i i' + damping * (i == i')%:R) * (s == s')%:R + (if zero_mean then 0 else mu i 0 * mu i' 0).
Proof.
have swap (a : 'I_c) (b : 'I_kk) : c = 1%N \/ kk = 1%N -> (b * c + a = a * kk + b)%N.
  case=> e; subst.
  - by rewrite (ord1 a) /= muln1 addn0 mul0n.
  - by rewrite (ord1 b) /= muln1 addn0 mul0n.
by move=> h hp hq; apply: sua_entries; rewrite ?hp ?hq swap.
Qed.
Lemma mask_refuted :
  (forall (mask : nat -> nat -> nat -> F) (p : patches F), p_depth p = (2 * 2 * 2)%N ->
     convdiag_mask_patches 2 2 2 mask p = Raise ValueError) /\
  (exists (mask : nat -> nat -> nat -> F) (p q : patches F),
     p_depth p = (2 * 2 * 1)%N /\ convdiag_mask_patches 2 2 1 mask p = Ok q /\
     ~ is_masked 2 2 1 mask p q).
Proof.
split.
- move=> mask p h; rewrite /convdiag_mask_patches h.
  by case: (broadcast_dim _ _) => // ?; case: (broadcast_dim _ _).
- exists (fun y x _ => (y == 0%N)%:R), (Patches 1 2 2 (2 * 2 * 1) (fun _ _ _ _ => 1)).
  eexists; split => //; split; first reflexivity.
  case=> _ /= h.
  have := h 0%N 0%N 0%N 1%N 0%N 0%N isT isT isT isT isT isT.
  by rewrite /= !mul1r => /eqP; rewrite oner_eq0.
Qed.
End Witness.
