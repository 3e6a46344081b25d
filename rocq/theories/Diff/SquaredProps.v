(** C127 for squared error losses, on any network. *)
From Coq Require Import List Arith Bool Reals Lra Lia.
From Coquelicot Require Import Coquelicot.
From Verif.Base Require Import Py.
From Verif.Curv Require Import Model Spec.
From Verif.Diff Require Import Model Spec GraphProofs DerivProofs ShapeProofs JacProofs HessProofs GnProofs Arith GnSpec Props GnProps Ggn GgnSpec GgnProofs GgnProps.
Import ListNotations.
Open Scope list_scope.
Open Scope R_scope.

Section Facts.
Variable O : ops.
Notation graph := (graph O).
Notation tan := (GraphProofs.tan O).
Notation secs := (GnProofs.secs O).
Notation at_rest := (at_rest O).

Lemma secs_at stops x u v G i nd : wf O G -> node_at O G i = Some nd ->
  secs stops x u v G i = if mem i stops then 0 else lin2 O x nd (tan stops x u G) (tan stops x v G) (secs stops x u v G).
Proof.
  induction G as [|y G IH]; [discriminate|]. intros (H1 & H2 & H3). cbn [node_at].
  destruct (Nat.eqb_spec i (length G)) as [->|N].
  - intros [= ->]. rewrite secs_top. destruct (mem _ _); [reflexivity|].
    apply lin2_ext; intros a Ha; symmetry; [apply tan_stable|apply tan_stable|apply secs_stable]; apply H1, Ha.
  - intro E. pose proof (node_at_lt _ _ _ _ E) as Hi. rewrite secs_stable by exact Hi.
    rewrite IH by assumption. destruct (mem _ _); [reflexivity|].
    apply lin2_ext; intros a Ha; symmetry; [apply tan_stable|apply tan_stable|apply secs_stable];
      apply (wf_at O _ _ _ H3 E) in Ha; lia.
Qed.
Lemma lin2_zero x nd T U Q : (forall a, In a (args_of O nd) -> T a = 0 /\ U a = 0 /\ Q a = 0) -> lin2 O x nd T U Q = 0.
Proof.
  intro H. destruct nd as [k|r| |p args|a b|a b]; cbn [lin2 args_of] in *; try reflexivity.
  - assert (K : forall (f : nat -> nat -> R) (e : nat -> R) ks l, (forall a, In a l -> T a = 0 /\ U a = 0 /\ Q a = 0) ->
       rsum (map2 (fun k a => f k a * T a + e k * Q a) ks l) = 0).
    { clear. intros f e ks. induction ks as [|k ks IH]; intros [|a l] H; try reflexivity.
      rewrite map2_cons, rsum_cons, IH by (intros; apply H; right; assumption).
      destruct (H a (or_introl eq_refl)) as (-> & _ & ->). ring. }
    apply (K (fun k _ => rsum (map2 (fun l b => ev O (dp O (dp O p k) l) (map x args) * U b) (seq 0 (length args)) args))
                       (fun k => ev O (dp O p k) (map x args)) _ args H).
  - destruct (H a) as (_ & _ & ->); [cbn; auto|]. destruct (H b) as (_ & _ & ->); [cbn; auto|]. ring.
  - destruct (H a) as (-> & -> & ->); [cbn; auto|]. destruct (H b) as (-> & -> & ->); [cbn; auto|]. ring.
Qed.
Lemma tan_unused_s stops x v G i : wf O G -> (i < length G)%nat -> (forall j, uses O stops G i j -> v j = 0) -> tan stops x v G i = 0.
Proof.
  intros W. induction i as [i IH] using lt_wf_ind. intros Hi H. destruct (node_at_some O G i Hi) as (nd & E).
  rewrite (tan_at O stops x v G i nd W E). rewrite H by constructor. destruct (mem i stops) eqn:M; [ring|].
  rewrite lin_zero; [ring|]. intros a Ha. pose proof (proj1 (wf_at O G i nd W E) a Ha).
  apply IH; [assumption|lia|]. intros j Hj. apply H. apply (uses_arg O stops G i nd a); auto.
  intro I. apply mem_In in I. congruence.
Qed.
Lemma secs_unused stops x u v G i : wf O G -> (i < length G)%nat ->
  (forall j, uses O stops G i j -> u j = 0 /\ v j = 0) -> secs stops x u v G i = 0.
Proof.
  intros W. induction i as [i IH] using lt_wf_ind. intros Hi H. destruct (node_at_some O G i Hi) as (nd & E).
  rewrite (secs_at stops x u v G i nd W E). destruct (mem i stops) eqn:M; [reflexivity|].
  apply lin2_zero. intros a Ha. pose proof (proj1 (wf_at O G i nd W E) a Ha).
  assert (Ua : forall j, uses O stops G a j -> u j = 0 /\ v j = 0).
  { intros j Hj. apply H. apply (uses_arg O stops G i nd a); auto. intro I. apply mem_In in I. congruence. }
  split; [|split].
  - apply tan_unused_s; [exact W|lia|]. intros j Hj. now apply Ua.
  - apply tan_unused_s; [exact W|lia|]. intros j Hj. now apply Ua.
  - apply IH; [assumption|lia|exact Ua].
Qed.
Lemma const_rest env (G : graph) i r : node_at O G i = Some (Const r) -> at_rest env G i = r.
Proof.
  unfold Spec.at_rest. induction G as [|nd G IH]; [discriminate|]. cbn [node_at moved].
  destruct (Nat.eqb i (length G)); [|exact IH]. intros [= ->]. cbn. unfold no_move. ring.
Qed.

(** The curvature of squared errors *)
Lemma squares_sec env G inputs u v items i : wf O G -> inside inputs u -> inside inputs v ->
  squared_errors O G inputs items i ->
  (forall z t c, In (z, t, c) items -> In z inputs /\ forall y, In y inputs -> ~ uses O inputs G t y) ->
  secs inputs (at_rest env G) u v G i = rsum (map (fun p => 2 * snd p * (u (fst (fst p)) * v (fst (fst p)))) items).
Proof.
  intros W Hu Hv Sq. set (x := at_rest env G).
  assert (N : forall k, ~ In k inputs -> mem k inputs = false).
  { intros k Hk. destruct (mem k inputs) eqn:M; [|reflexivity]. apply mem_In in M. contradiction. }
  induction Sq as [i Ei Ni|z t c rest i tot s ci q d m o _ IH Ei Es Ec Eq Ed Em Eo Out]; intro H.
  - rewrite (secs_at inputs x u v G i _ W Ei), (N i Ni). reflexivity.
  - destruct (H z t c (or_introl eq_refl)) as (Iz & Nt).
    assert (Lt : (t < length G)%nat).
    { pose proof (proj1 (wf_at O G m _ W Em) t ltac:(cbn; auto)). apply node_at_lt in Em. lia. }
    assert (Lz : (z < length G)%nat).
    { pose proof (proj1 (wf_at O G d _ W Ed) z ltac:(cbn; auto)). apply node_at_lt in Ed. lia. }
    assert (Nu : forall w, inside inputs w -> forall k, ~ In k inputs -> w k = 0) by (intros w Hw k Hk; apply Hw, Hk).
    assert (Tt : forall w, inside inputs w -> tan inputs x w G t = 0).
    { intros w Hw. apply tan_unused_s; [exact W|exact Lt|]. intros j Uj. apply Hw. intro Ij. exact (Nt j Ij Uj). }
    assert (St : secs inputs x u v G t = 0).
    { apply secs_unused; [exact W|exact Lt|]. intros j Uj. assert (~ In j inputs) by (intro Ij; exact (Nt j Ij Uj)).
      split; [now apply Hu|now apply Hv]. }
    destruct (node_at_some O G z Lz) as (nz & Ez).
    assert (Mz : mem z inputs = true) by (now apply mem_In).
    assert (Tz : forall w, tan inputs x w G z = w z).
    { intro w. rewrite (tan_at O inputs x w G z _ W Ez), Mz. ring. }
    assert (Sz : secs inputs x u v G z = 0) by (rewrite (secs_at inputs x u v G z _ W Ez), Mz; reflexivity).
    assert (Ki : ~ In i inputs) by (apply Out; cbn; tauto). assert (Ks : ~ In s inputs) by (apply Out; cbn; tauto).
    assert (Kc : ~ In ci inputs) by (apply Out; cbn; tauto). assert (Kq : ~ In q inputs) by (apply Out; cbn; tauto).
    assert (Kd : ~ In d inputs) by (apply Out; cbn; tauto). assert (Km : ~ In m inputs) by (apply Out; cbn; tauto).
    assert (Ko : ~ In o inputs) by (apply Out; cbn; tauto).
    assert (To : forall w, inside inputs w -> tan inputs x w G o = 0).
    { intros w Hw. rewrite (tan_at O inputs x w G o _ W Eo), (N o Ko), (Hw o Ko). cbn [lin]. ring. }
    assert (Tm : forall w, inside inputs w -> tan inputs x w G m = 0).
    { intros w Hw. rewrite (tan_at O inputs x w G m _ W Em), (N m Km), (Hw m Km). cbn [lin]. rewrite To, Tt by exact Hw. ring. }
    assert (Td : forall w, inside inputs w -> tan inputs x w G d = w z).
    { intros w Hw. rewrite (tan_at O inputs x w G d _ W Ed), (N d Kd), (Hw d Kd). cbn [lin]. rewrite Tz, Tm by exact Hw. ring. }
    assert (Tc : forall w, inside inputs w -> tan inputs x w G ci = 0).
    { intros w Hw. rewrite (tan_at O inputs x w G ci _ W Ec), (N ci Kc), (Hw ci Kc). cbn [lin]. ring. }
    assert (So : secs inputs x u v G o = 0) by (rewrite (secs_at inputs x u v G o _ W Eo), (N o Ko); reflexivity).
    assert (Sc : secs inputs x u v G ci = 0) by (rewrite (secs_at inputs x u v G ci _ W Ec), (N ci Kc); reflexivity).
    assert (Sm : secs inputs x u v G m = 0).
    { rewrite (secs_at inputs x u v G m _ W Em), (N m Km). cbn [lin2]. rewrite So, St, !To, !Tt by assumption. ring. }
    assert (Sd : secs inputs x u v G d = 0).
    { rewrite (secs_at inputs x u v G d _ W Ed), (N d Kd). cbn [lin2]. rewrite Sz, Sm. ring. }
    assert (Sqq : secs inputs x u v G q = 2 * (u z * v z)).
    { rewrite (secs_at inputs x u v G q _ W Eq), (N q Kq). cbn [lin2]. rewrite Sd, !Td by assumption. ring. }
    assert (Ss : secs inputs x u v G s = c * (2 * (u z * v z))).
    { rewrite (secs_at inputs x u v G s _ W Es), (N s Ks). cbn [lin2]. rewrite Sc, Sqq, !Tc by assumption.
      assert (Xc : x ci = c) by (exact (const_rest env G ci c Ec)). rewrite Xc. ring. }
    rewrite (secs_at inputs x u v G i _ W Ei), (N i Ki). cbn [lin2 map fst snd]. rewrite rsum_cons, Ss.
    rewrite IH by (intros; apply (H z0 t0 c0); right; assumption). ring.
Qed.

(** What the products of the losses put into the graph *)
Lemma squared_values env coeffs : forall G js jv, wf O G -> length js = length coeffs ->
  Forall2 (fun j v => value O env G j = Some v) js jv ->
  let (G2, us) := squared_products O coeffs G js in
  (exists added, G2 = added ++ G) /\ wf O G2 /\
  Forall2 (fun u d => value O env G2 u = Some d) us (map2 (fun c v => 2 * c * v) coeffs jv).
Proof.
  induction coeffs as [|c coeffs IH]; intros G js jv W L F.
  { destruct js; [|discriminate]. inversion F; subst. cbn [squared_products]. split; [now exists []|]. split; [exact W|constructor]. }
  destruct js as [|j js]; [discriminate|]. inversion F as [|? v ? jv' Ev F']; subst.
  cbn [squared_products]. set (n := length G).
  set (G1 := Mul (2 + n)%nat (1 + n)%nat :: Const c :: Mul n j :: Const (1 / (1 / 2)) :: G).
  assert (Hj : (j < n)%nat) by (exact (clean_lt O _ _ (value_clean O env _ _ _ Ev))).
  assert (W1 : wf O G1).
  { unfold G1. cbn [wf args_of length]. fold n.
    repeat match goal with |- _ /\ _ => split end; try discriminate; try exact W; intros a Ha; cbn in Ha; intuition lia. }
  assert (Ex : forall i w, value O env G i = Some w -> value O env G1 i = Some w).
  { intros i w Ei. change G1 with ([Mul (2 + n)%nat (1 + n)%nat; Const c; Mul n j; Const (1 / (1 / 2))] ++ G).
    rewrite (stable_ext O); [exact Ei|apply value_stable|]. exact (clean_lt O _ _ (value_clean O env _ _ _ Ei)). }
  assert (V : value O env G1 (3 + n)%nat = Some (2 * c * v)).
  { unfold G1. cbn [value length]. fold n. rewrite Nat.eqb_refl. cbn [node_value value length]. fold n.
    rewrite Nat.eqb_refl. cbn [node_value].
    replace (Nat.eqb (1 + n)%nat (S (S n))) with false by (symmetry; apply Nat.eqb_neq; lia).
    cbn [value length]. fold n. rewrite Nat.eqb_refl. cbn [node_value value length]. fold n. rewrite Nat.eqb_refl. cbn [node_value].
    replace (Nat.eqb j n) with false by (symmetry; apply Nat.eqb_neq; lia).
    rewrite Ev. cbn [strict2]. f_equal. field. }
  specialize (IH G1 js jv' W1 ltac:(cbn in L; lia)).
  destruct (squared_products O coeffs G1 js) as [G2 us]. destruct IH as ((h & E) & W2 & F2).
  { clear -F' Ex. induction F'; constructor; auto. }
  split; [exists (h ++ [Mul (2 + n)%nat (1 + n)%nat; Const c; Mul n j; Const (1 / (1 / 2))]); rewrite E; unfold G1; now rewrite <- app_assoc|].
  split; [exact W2|]. rewrite map2_cons. constructor; [|exact F2].
  rewrite E, (stable_ext O); [exact V|apply value_stable|]. unfold G1, n. cbn. lia.
Qed.
Lemma along_at zs : forall vs, NoDup zs -> length vs = length zs -> map (along zs vs) zs = vs.
Proof.
  induction zs as [|z zs IH]; intros [|v vs] Nd L; try discriminate; [reflexivity|].
  inversion Nd as [|? ? Nz Nd']; subst. cbn [map].
  assert (H0 : forall i, along (z :: zs) (v :: vs) i = (if Nat.eqb i z then v else 0) + along zs vs i).
  { intro i. unfold along. now rewrite map2_cons, rsum_cons. }
  f_equal.
  - rewrite H0, Nat.eqb_refl, (along_inside zs vs z Nz). ring.
  - rewrite <- (IH vs Nd') at 2 by (cbn in L; lia). apply map_ext_in. intros y Iy. rewrite H0.
    destruct (Nat.eqb_spec y z) as [->|_]; [contradiction|]. ring.
Qed.
Lemma pick items : forall z c t (v : nat -> R), NoDup (map (fun p => fst (fst p)) items) -> In (z, t, c) items ->
  rsum (map (fun p : nat * nat * R => 2 * snd p * (delta z (fst (fst p)) * v (fst (fst p)))) items) = 2 * c * v z.
Proof.
  induction items as [|[[y s] d] items IH]; intros z c t v Nd I; [destruct I|]. cbn [map fst snd] in *.
  inversion Nd as [|? ? Ny Nd']; subst. rewrite rsum_cons. unfold delta at 1. destruct I as [[= <- <- <-]|I].
  - rewrite Nat.eqb_refl.
    assert (Z : rsum (map (fun p : nat * nat * R => 2 * snd p * (delta y (fst (fst p)) * v (fst (fst p)))) items) = 0).
    { clear -Ny. induction items as [|[[w s'] d'] items IH]; [reflexivity|]. cbn [map fst snd] in *. rewrite rsum_cons, IH by (intro K; apply Ny; right; exact K).
      unfold delta. destruct (Nat.eqb_spec w y) as [->|_]; [destruct Ny; left; reflexivity|ring]. }
    rewrite Z. ring.
  - rewrite (IH z c t v Nd' I). destruct (Nat.eqb_spec y z) as [->|_]; [|ring].
    destruct Ny. apply in_map_iff. now exists (z, t, c).
Qed.
Lemma squared_multiplies env G loss items : smooth O -> wf O G ->
  let inputs := map (fun p => fst (fst p)) items in
  NoDup inputs -> squared_errors O G inputs items loss ->
  (forall z t c, In (z, t, c) items -> forall y, In y inputs -> ~ uses O inputs G t y) ->
  multiplies_curvature O env G loss inputs (squared_products O (map snd items)).
Proof.
  intros Sm W inputs Nd Sq Ht before js jv Wb L F.
  assert (Lj : length js = length (map (@snd (nat * nat) R) items)) by (unfold inputs in L; now rewrite L, !map_length).
  pose proof (squared_values env (map snd items) (before ++ G) js jv Wb Lj F) as K.
  destruct (squared_products O (map snd items) (before ++ G) js) as [G2 us]. destruct K as (E & W2 & Fu).
  split; [exact E|]. split; [exact W2|].
  assert (Lv : length jv = length inputs) by (rewrite <- L; symmetry; apply (F2_length_map _ _ _ F)).
  assert (C : forall z t c, In (z, t, c) items -> second_derivative O env inputs G loss z (along inputs jv) (2 * c * along inputs jv z)).
  { intros z t c I. apply (proj2 (second_is O env inputs G loss z _ _ Sm W)).
    assert (Iz : In z inputs) by (apply in_map_iff; now exists (z, t, c)).
    rewrite (squares_sec env G inputs (delta z) (along inputs jv) items loss W (delta_inside _ _ Iz) (along_inside _ _) Sq).
    - symmetry. exact (pick items z c t _ Nd I).
    - intros z' t' c' I'. split; [apply in_map_iff; now exists (z', t', c')|exact (Ht z' t' c' I')]. }
  assert (Ej : jv = map (along inputs jv) inputs) by (symmetry; apply along_at; assumption).
  rewrite Ej in Fu.
  assert (K : forall (V : nat -> R) zs l us,
    Forall2 (fun u d => value O env G2 u = Some d) us (map2 (fun c v => 2 * c * v) (map snd l) (map V (map (fun p : nat * nat * R => fst (fst p)) l))) ->
    (forall z t c, In (z, t, c) l -> second_derivative O env zs G loss z V (2 * c * V z)) ->
    Forall2 (fun z u => exists D, value O env G2 u = Some D /\ second_derivative O env zs G loss z V D) (map (fun p => fst (fst p)) l) us).
  { clear. intros V zs. induction l as [|[[z t] c] l IH]; intros us Fu C; cbn [map fst snd] in *.
    - inversion Fu. constructor.
    - rewrite map2_cons in Fu. inversion Fu as [|u ? us' ? Eu Fu']; subst. constructor.
      + exists (2 * c * V z). split; [exact Eu|]. apply (C z t c). now left.
      + apply IH; [exact Fu'|]. intros; eapply C; right; eassumption. }
  exact (K _ _ _ _ Fu C).
Qed.
End Facts.

(** The squared error of any network: predictions that are distinct nodes, targets that are not
    computed from predictions, any coefficients.  If every prediction is computed from some of the
    tensors, the product is, for each tensor, the sum over the predictions of twice the coefficient
    times the change of the prediction by this tensor times its change along the vectors; and
    v' G v is the sum of twice the coefficients times the squared changes along the vectors: it is
    never negative if the coefficients are not, and with positive ones it is zero only if no
    prediction moves. *)
Theorem C127_squared_error_partial (O : ops) env G loss items wrt vecs jv :
  let inputs := map (fun p => fst (fst p)) items in
  let coeffs := map snd items in
  smooth O -> user_graph O G -> squared_errors O G inputs items loss -> NoDup inputs ->
  (forall z t c, In (z, t, c) items -> forall y, In y inputs -> ~ uses O inputs G t y) ->
  nodes_of O G inputs -> nodes_of O G wrt -> nodes_of O G vecs -> length vecs = length wrt ->
  (forall z, In z inputs -> exists w, In w wrt /\ uses O wrt G z w) ->
  Forall2 (moves O env G wrt (along wrt (map (at_rest O env G) vecs))) inputs jv ->
  exists G2 rs ds, multiply_ggn O (squared_products O coeffs) G inputs wrt vecs = Ok (G2, rs) /\
    Forall2 (stands_for O env G2) rs ds /\ length ds = length wrt /\
    (forall k w, nth_error wrt k = Some w -> exists jw, Forall2 (moves O env G wrt (along [w] [1])) inputs jw /\
       nth k ds 0 = rsum (map2 Rmult (map2 (fun c v => 2 * c * v) coeffs jv) jw)) /\
    rsum (map2 Rmult ds (map (at_rest O env G) vecs)) = rsum (map2 (fun c v => 2 * c * (v * v)) coeffs jv).
Proof.
  intros inputs coeffs Sm U Sq Nd Ht Hz Hw Hv Lv Dep Fj. pose proof (proj1 U) as W.
  pose proof (squared_multiplies O env G loss items Sm W Nd Sq Ht) as HP. fold inputs coeffs in HP.
  destruct (ggn_ok O env G loss inputs wrt vecs _ Sm U Hz Hw Hv Lv Dep HP) as (G2 & rs & E & F).
  set (x := at_rest O env G) in *.
  pose proof (moves_map O env G wrt _ _ _ Sm W Fj) as Ej. fold x in Ej. rewrite <- Ej in F.
  assert (Lj : length jv = length inputs) by (rewrite Ej; apply map_length).
  assert (Cv : map (fun z => secs O inputs x (delta z) (along inputs jv) G loss) inputs = map2 (fun c v => 2 * c * v) coeffs jv).
  { transitivity (map2 (fun c v => 2 * c * v) coeffs (map (along inputs jv) inputs)); [|now rewrite along_at].
    unfold coeffs.
    assert (K : forall l, (forall p, In p l -> In p items) ->
      map (fun z => secs O inputs x (delta z) (along inputs jv) G loss) (map (fun p => fst (fst p)) l)
      = map2 (fun c v => 2 * c * v) (map snd l) (map (along inputs jv) (map (fun p : nat * nat * R => fst (fst p)) l))).
    { induction l as [|[[z t] c] l IH]; intro Hl; [reflexivity|]. cbn [map fst snd]. rewrite map2_cons. f_equal.
      - assert (Iz : In z inputs) by (apply in_map_iff; exists (z, t, c); split; [reflexivity|apply Hl; now left]).
        unfold x. rewrite (squares_sec O env G inputs (delta z) (along inputs jv) items loss W (delta_inside _ _ Iz) (along_inside _ _) Sq).
        + apply (pick items z c t); [exact Nd|apply Hl; now left].
        + intros z' t' c' I'. split; [apply in_map_iff; now exists (z', t', c')|exact (Ht z' t' c' I')].
      - apply IH. intros; apply Hl; now right. }
    apply K. auto. }
  eexists G2, rs, (map _ wrt). split; [exact E|]. split; [eapply F2_of; [|exact F]; intros y r St; exact St|].
  split; [apply map_length|]. split.
  - intros k w Hk. exists (map (GraphProofs.tan O wrt x (delta w) G) inputs). split.
    + apply F2_map. intros z _. apply moves_is; [exact Sm|exact W|]. apply tan_ext. intro j. apply delta_along.
    + rewrite <- Cv, <- swap_maps. apply (nth_error_nth _ k 0). rewrite nth_error_map, Hk. reflexivity.
  - unfold x. rewrite quadratic by assumption. fold x. rewrite swap_maps, Cv, <- Ej.
    clear. unfold coeffs. generalize (map snd items) as cs. intro cs. revert jv.
    induction cs as [|c cs IH]; intros [|v jv]; try reflexivity. rewrite !map2_cons, !rsum_cons, IH. ring.
Qed.
Print Assumptions C127_squared_error_partial.

(* ------------------------------------------------------------------------ *)
(** * The hypotheses can be met *)

(** Two predictions that are not linear in the tensors w and b: w w and w b, with coefficients
    3 and 1. *)
Definition two_predictions : graph arithmetic :=
  [Add 15 20; Mul 19 18; Const 1; Mul 17 17; Add 7 16; Mul 9 3;
   Add 8 14; Mul 13 12; Const 3; Mul 11 11; Add 6 10; Mul 9 2; Const (-1); Const 0;
   Mul 0 1; Mul 0 0; Leaf 5; Leaf 4; Leaf 3; Leaf 2; Leaf 1; Leaf 0].
Definition two_items : list (nat * nat * R) := [(7%nat, 3%nat, 1); (6%nat, 2%nat, 3)].
Lemma two_user : user_graph arithmetic two_predictions.
Proof.
  split.
  - cbn; repeat match goal with |- _ /\ _ => split end; try exact I; try discriminate; intros a Ha; intuition lia.
  - intro i. do 22 (destruct i as [|i]; [cbn; discriminate|]). cbn. discriminate.
Qed.
Lemma two_squared : squared_errors arithmetic two_predictions [7%nat; 6%nat] two_items 21.
Proof.
  apply (se_more arithmetic _ _ _ _ _ _ 21 15 20 19 18 17 16 9); try reflexivity.
  - apply (se_more arithmetic _ _ _ _ _ _ 15 8 14 13 12 11 10 9); try reflexivity.
    + apply se_zero; [reflexivity|]. intros [H|[H|[]]]; discriminate.
    + intros k Hk [<-|[<-|[]]]; cbn in Hk; intuition discriminate.
  - intros k Hk [<-|[<-|[]]]; cbn in Hk; intuition discriminate.
Qed.
Definition two_env (k : nat) : R := match k with 0%nat => 2 | _ => 1 end.
Lemma two_rest i k : (i < 6)%nat -> node_at arithmetic two_predictions i = Some (Leaf k) ->
  at_rest arithmetic two_env two_predictions i = two_env k.
Proof.
  intros Hi. unfold at_rest, no_move.
  do 6 (destruct i as [|i]; [intros [= <-]; cbn; ring|]). lia.
Qed.
Lemma two_tan v : GraphProofs.tan arithmetic [0%nat; 1%nat] (at_rest arithmetic two_env two_predictions) v two_predictions 7
    = v 7%nat + (v 0%nat * 1 + 2 * v 1%nat) /\
  GraphProofs.tan arithmetic [0%nat; 1%nat] (at_rest arithmetic two_env two_predictions) v two_predictions 6
    = v 6%nat + (v 0%nat * 2 + 2 * v 0%nat).
Proof.
  pose proof (proj1 two_user) as W.
  assert (T0 : GraphProofs.tan arithmetic [0%nat; 1%nat] (at_rest arithmetic two_env two_predictions) v two_predictions 0 = v 0%nat).
  { rewrite (tan_at arithmetic _ _ _ _ 0 (Leaf 0) W eq_refl). cbn [mem existsb Nat.eqb orb]. ring. }
  assert (T1 : GraphProofs.tan arithmetic [0%nat; 1%nat] (at_rest arithmetic two_env two_predictions) v two_predictions 1 = v 1%nat).
  { rewrite (tan_at arithmetic _ _ _ _ 1 (Leaf 1) W eq_refl). cbn [mem existsb Nat.eqb orb]. ring. }
  split.
  - rewrite (tan_at arithmetic _ _ _ _ 7 (Mul 0 1) W eq_refl). cbn [mem existsb Nat.eqb orb lin].
    rewrite T0, T1, (two_rest 0 0 ltac:(lia) eq_refl), (two_rest 1 1 ltac:(lia) eq_refl). reflexivity.
  - rewrite (tan_at arithmetic _ _ _ _ 6 (Mul 0 0) W eq_refl). cbn [mem existsb Nat.eqb orb lin].
    rewrite T0, (two_rest 0 0 ltac:(lia) eq_refl). reflexivity.
Qed.
Example C127_two_predictions : exists G2 rs ds,
  multiply_ggn arithmetic (squared_products arithmetic [1; 3]) two_predictions [7%nat; 6%nat] [0%nat; 1%nat] [4%nat; 5%nat] = Ok (G2, rs) /\
  Forall2 (stands_for arithmetic two_env G2) rs ds /\
  rsum (map2 Rmult ds (map (at_rest arithmetic two_env two_predictions) [4%nat; 5%nat])) = 114.
Proof.
  pose proof (proj1 two_user) as W.
  destruct (C127_squared_error_partial arithmetic two_env two_predictions 21 two_items [0%nat; 1%nat] [4%nat; 5%nat] [3; 4])
    as (G2 & rs & ds & E & F & _ & _ & Q).
  - exact arithmetic_smooth.
  - exact two_user.
  - exact two_squared.
  - cbn. repeat constructor; cbn; intuition discriminate.
  - intros z t c I y Iy Uy. cbn in I, Iy.
    assert (y = t).
    { refine (leaf_uses _ _ _ _ _ _ Uy). intros nd. destruct I as [[= <- <- <-]|[[= <- <- <-]|[]]]; cbn; intros [= <-]; reflexivity. }
    destruct I as [[= <- <- <-]|[[= <- <- <-]|[]]]; subst; intuition discriminate.
  - intros i [<-|[<-|[]]]; cbn; lia.
  - intros i [<-|[<-|[]]]; cbn; lia.
  - intros i [<-|[<-|[]]]; cbn; lia.
  - reflexivity.
  - intros z Iz. exists 0%nat. split; [left; reflexivity|].
    destruct Iz as [<-|[<-|[]]]; [step (@Mul arithmetic 0 1) 0%nat|step (@Mul arithmetic 0 0) 0%nat]; constructor.
  - cbn [two_items map fst snd].
    rewrite (two_rest 4 4 ltac:(lia) eq_refl), (two_rest 5 5 ltac:(lia) eq_refl).
    constructor; [|constructor; [|constructor]]; apply (proj2 (moves_is arithmetic _ _ _ _ _ _ arithmetic_smooth W)).
    + rewrite (proj1 (two_tan _)). unfold along. cbn. ring.
    + rewrite (proj2 (two_tan _)). unfold along. cbn. ring.
  - exists G2, rs, ds. split; [exact E|]. split; [exact F|]. rewrite Q. unfold two_items. cbn [map snd].
    rewrite !map2_cons, !rsum_cons. cbn. ring.
Qed.
