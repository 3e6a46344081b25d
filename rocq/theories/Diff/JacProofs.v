(** Gradients and forward derivatives. *)
From Coq Require Import List Arith Bool Reals Lra Lia.
From Verif.Base Require Import Py.
From Verif.Curv Require Import Model Spec.
From Verif.Diff Require Import Model Spec GraphProofs DerivProofs ShapeProofs.
Import ListNotations.
Open Scope list_scope.
Open Scope R_scope.

Section Graphs.
Variable O : ops.
Notation graph := (graph O).
Notation moved := (moved O).
Notation tan := (tan O).
Notation lin := (lin O).
Notation node_at := (node_at O).
Notation at_rest := (at_rest O).

Lemma zip_in {A B} (l : list A) (m : list B) a b : In (a, b) (zip l m) -> In a l /\ In b m.
Proof.
  revert m. induction l as [|x l IH]; intros [|y m]; cbn; try tauto.
  intros [[= -> ->]|H]; [tauto|]. apply IH in H. tauto.
Qed.

(** ** Values of gradients *)
Section Values.
Variables (env : nat -> R) (e : nat -> R) (G0 : graph).
Hypothesis W : wf O G0.
Hypothesis He : forall j, (length G0 <= j)%nat -> e j = 0.
Let X := moved env [] no_move e.

Lemma grad_values stops l x :
  (forall y g, In (y, g) l -> (y < length G0)%nat /\ (g < length G0)%nat) -> (x < length G0)%nat ->
  let st := back O stops (length G0) (seed O (G0, fun _ => None) l) in
  acc O X st x = rsum (map (fun p => X G0 (snd p) * tan stops (X G0) (delta x) G0 (fst p)) l).
Proof.
  intros Hl Hx st.
  pose proof (pass_ok O (length G0) (length G0) X X G0 (le_n _)) as P.
  destruct (P (moved_stable _ _ _ _ _) (moved_stable _ _ _ _ _)) with
    (stops := stops) (v := delta x) (T := tan stops (X G0) (delta x) G0) (G0 := G0) (l := l)
    as (_ & E).
  - intros G a b H _ _. unfold X. rewrite moved_top. cbn [mem existsb real_node]. rewrite He by exact H. ring.
  - intros G a b H _ _ _. unfold X. rewrite moved_top. cbn [mem existsb real_node]. rewrite He by exact H. ring.
  - intros G p args H _. unfold X. rewrite moved_top. cbn [mem existsb real_node]. rewrite He by exact H. ring.
  - reflexivity.
  - reflexivity.
  - intros i nd Hi a Ha. apply (wf_at O G0 i nd W Hi) in Ha. pose proof (node_at_lt O _ _ _ Hi). lia.
  - intros i nd Hi a Ha. apply (wf_at O G0 i nd W Hi), Ha.
  - intros i nd Hi. apply tan_at; assumption.
  - exact Hl.
  - fold st in E. rewrite <- E.
    rewrite <- (total_one (length G0) x (acc O X st x)) by exact Hx. apply total_ext. intros j _.
    unfold delta. destruct (Nat.eqb_spec j x) as [->|]; ring.
Qed.
End Values.

(** ** Shapes of gradients *)
Lemma wf_ext h (G : graph) : wf O (h ++ G) -> wf O G.
Proof. induction h as [|nd h IH]; [trivial|]. intros (_ & _ & H). apply IH, H. Qed.
Lemma is_arg_lt G b : wf O G -> is_arg O G b -> (b < length G)%nat.
Proof. intros W (i & nd & E & H). pose proof (node_at_lt O _ _ _ E). apply (wf_at O G i nd W E) in H. lia. Qed.
Lemma grown_wf G0 G : typed O -> wf O G0 -> grown O G0 G -> wf O G.
Proof.
  intros Ty W. induction 1 as [|G a b Gr IH Ha Hb|G nd Gr IH Hp|G a b Gr IH Ha Hb].
  - exact W.
  - split; [intros c [<-|[<-|[]]]; assumption|]. split; [discriminate|exact IH].
  - destruct Hp as (i & p & k & args & -> & E). destruct (grown_ext O _ _ Gr) as (h & ->).
    destruct (wf_at O G0 i _ W E) as (A & B). pose proof (node_at_lt O _ _ _ E). split; [|split; [|exact IH]].
    + intros a Ha. apply A in Ha. rewrite app_length. lia.
    + intros p' args' [= <- <-]. rewrite Ty. apply B. reflexivity.
  - assert (H : (b < length G)%nat).
    { destruct Hb as [Hb|(nd & E & _)]; [|apply (node_at_lt O _ _ _ E)].
      apply (is_arg_lt G0) in Hb; [|exact W]. destruct (grown_ext O _ _ Gr) as (h & ->). rewrite app_length. lia. }
    split; [intros c [<-|[<-|[]]]; assumption|]. split; [discriminate|exact IH].
Qed.
Lemma clean_at G i nd : wf O G -> node_at G i = Some nd ->
  clean O G i = match nd with Nan => false | _ => forallb (clean O G) (args_of O nd) end.
Proof.
  induction G as [|y G IH]; [discriminate|]. intros (W1 & W2 & W3). cbn [Model.node_at].
  assert (F : forall l, (forall a, In a l -> (a < length G)%nat) -> forallb (clean O (y :: G)) l = forallb (clean O G) l).
  { induction l as [|a l IHl]; intro H; [reflexivity|]. cbn [forallb].
    rewrite (clean_stable O y G a) by (apply H; left; reflexivity). f_equal. apply IHl. intros; apply H; right; assumption. }
  destruct (Nat.eqb_spec i (length G)) as [->|N].
  - intros [= ->]. rewrite clean_top. destruct nd; try reflexivity; symmetry; apply F, W1.
  - intro E. pose proof (node_at_lt O _ _ _ E). rewrite clean_stable by assumption.
    rewrite (IH W3 E). destruct nd; try reflexivity; symmetry; apply F;
      intros c Hc; apply (wf_at O G i _ W3 E) in Hc; lia.
Qed.
Definition all_clean (G : graph) : Prop := forall i, (i < length G)%nat -> clean O G i = true.
Lemma grown_clean G0 G : typed O -> wf O G0 -> all_clean G0 -> grown O G0 G -> all_clean G.
Proof.
  intros Ty W A Gr. pose proof (grown_wf G0 G Ty W Gr) as WG. induction Gr as [|G a b Gr IH Ha Hb|G nd Gr IH Hp|G a b Gr IH Ha Hb].
  - exact A.
  - intros i Hi. destruct (Nat.eq_dec i (length G)) as [->|N].
    + rewrite clean_top. cbn. rewrite !IH; try reflexivity; try assumption; apply WG; cbn; auto.
    + rewrite clean_stable by (cbn in Hi; lia). apply IH; [apply WG|cbn in Hi; lia].
  - intros i Hi. destruct (Nat.eq_dec i (length G)) as [->|N].
    + rewrite clean_top. destruct Hp as (j & p & k & args & -> & E). cbn. apply forallb_forall.
      intros a Ha. apply IH; [apply WG|]. apply WG. exact Ha.
    + rewrite clean_stable by (cbn in Hi; lia). apply IH; [apply WG|cbn in Hi; lia].
  - intros i Hi. destruct (Nat.eq_dec i (length G)) as [->|N].
    + rewrite clean_top. cbn. rewrite !IH; try reflexivity; try assumption; apply WG; cbn; auto.
    + rewrite clean_stable by (cbn in Hi; lia). apply IH; [apply WG|cbn in Hi; lia].
Qed.

(** The reverse pass without NaN: which nodes there are, and which get a gradient. *)
Lemma pass_plain G0 stops l : wf O G0 ->
  (forall y g, In (y, g) l -> (y < length G0)%nat /\ (g < length G0)%nat) ->
  let st := back O stops (length G0) (seed O (G0, fun _ => None) l) in
  grown O G0 (fst st) /\ (forall j c, snd st j = Some c -> (c < length (fst st))%nat) /\
  forall y g x, In (y, g) l -> uses O stops G0 y x -> snd st x <> None.
Proof.
  intros W H st.
  destruct (pass_shape O G0) with (P := fun (_ : graph) (_ : nat) => True) (C := fun (_ : graph) (_ : nat) => True)
    (K := fun _ : nat => False) (stops := stops) (l := l) as (Gd & Cv); try tauto.
  - intros i nd E a Ha. apply (wf_at O G0 i nd W E), Ha.
  - intros y g I. destruct (H y g I). tauto.
  - fold st in Gd, Cv. destruct Gd as (A & B & _). split; [exact A|]. split; [exact B|].
    intros y g x I U E. destruct (Cv y g x I Logic.I U) as (c & Ec & _). congruence.
Qed.

(** ** gradients, on a user's graph *)
Lemma gradients_ok env G ys xs gys stops : typed O -> user_graph O G ->
  nodes_of O G ys -> nodes_of O G xs -> nodes_of O G gys ->
  let (G', rs) := gradients O G ys xs gys stops in
  grown O G G' /\ all_clean G' /\
  Forall2 (fun x r =>
    (forall c, r = Some c -> (c < length G')%nat) /\
    stands_for O env G' r
      (rsum (map (fun p => at_rest env G (snd p) * tan stops (at_rest env G) (delta x) G (fst p)) (zip ys gys))) /\
    (forall y g, In (y, g) (zip ys gys) -> uses O stops G y x -> r <> None)) xs rs.
Proof.
  intros Ty U Hy Hx Hg. pose proof U as (W & _). unfold gradients.
  set (st := back O stops (length G) (seed O (G, fun _ => None) (zip ys gys))).
  assert (Hl : forall y g, In (y, g) (zip ys gys) -> (y < length G)%nat /\ (g < length G)%nat).
  { intros y g I. apply zip_in in I. split; [apply Hy|apply Hg]; apply I. }
  destruct (pass_plain G stops (zip ys gys) W Hl) as (Gr & Lt & Us). fold st in Gr, Lt, Us.
  assert (AC : all_clean (fst st)) by (apply (grown_clean G); auto; exact (user_clean O G U)).
  split; [exact Gr|]. split; [exact AC|].
  induction xs as [|x xs IH]; cbn [map]; constructor.
  - split; [intros c E; apply (Lt x c E)|]. split.
    + pose proof (grad_values env no_move G W (fun _ _ => eq_refl) stops (zip ys gys) x Hl (Hx x (or_introl eq_refl))) as V.
      cbv zeta in V. fold st in V. fold (at_rest env G) in V. rewrite <- V.
      unfold acc, stands_for. destruct (snd st x) as [c|] eqn:E; [|reflexivity].
      apply clean_value, AC, (Lt _ _ E).
    + intros y g I Uy. apply (Us y g x I Uy).
  - apply IH. intros i Hi. apply Hx. right. exact Hi.
Qed.

(** ** Tangents along the placeholders *)
Fixpoint itan (env v : nat -> R) (G : graph) (i : nat) : R :=
  match G with
  | [] => 0
  | nd :: G' => if Nat.eqb i (length G') then v i + lin (at_rest env G') nd (itan env v G') else itan env v G' i
  end.
Lemma itan_stable env v : stable O (itan env v).
Proof. intros nd G i H. cbn. destruct (Nat.eqb_spec i (length G)); [lia|reflexivity]. Qed.
Lemma itan_top env v nd G : itan env v (nd :: G) (length G) = v (length G) + lin (at_rest env G) nd (itan env v G).
Proof. cbn. rewrite Nat.eqb_refl. reflexivity. Qed.
Lemma itan_tan env v G i : wf O G -> itan env v G i = tan [] (at_rest env G) v G i.
Proof.
  revert i. induction G as [|nd G IH]; intros i W; [reflexivity|]. destruct W as (W1 & W2 & W3).
  assert (E : forall j, tan [] (at_rest env (nd :: G)) v G j = tan [] (at_rest env G) v G j).
  { intro j. apply tan_values; [exact W3|]. intros k Hk. unfold at_rest. apply moved_stable, Hk. }
  cbn [itan GraphProofs.tan]. destruct (Nat.eqb i (length G)).
  - cbn [mem existsb]. f_equal. apply lin_ext.
    + intros a Ha. unfold at_rest. symmetry. apply moved_stable, W1, Ha.
    + intros a Ha. rewrite E. apply IH, W3.
  - rewrite E. apply IH, W3.
Qed.
Lemma lin_zero x nd T : (forall a, In a (args_of O nd) -> T a = 0) -> lin x nd T = 0.
Proof.
  intro H. rewrite (lin_ext O x x nd T (fun i => 0 * 0 + 0 * 0)).
  - rewrite (lin_comb O x nd 0 (fun _ => 0) 0 (fun _ => 0)). ring.
  - reflexivity.
  - intros a Ha. rewrite H by exact Ha. ring.
Qed.
Lemma itan_zero env v G i : (forall j, (j < length G)%nat -> v j = 0) -> itan env v G i = 0.
Proof.
  revert i. induction G as [|nd G IH]; intros i H; [reflexivity|]. cbn.
  assert (H' : forall j, (j < length G)%nat -> v j = 0) by (intros; apply H; cbn; lia).
  destruct (Nat.eqb_spec i (length G)) as [->|_]; [|apply IH, H'].
  rewrite H by (cbn; lia). rewrite lin_zero; [ring|]. intros a _. apply IH, H'.
Qed.
Lemma node_split G i nd : node_at G i = Some nd -> exists h G', G = h ++ nd :: G' /\ length G' = i.
Proof.
  induction G as [|y G IH]; [discriminate|]. cbn. destruct (Nat.eqb_spec i (length G)) as [->|_].
  - intros [= <-]. exists [], G. split; reflexivity.
  - intro H. destruct (IH H) as (h & G' & -> & E). exists (y :: h), G'. split; [reflexivity|exact E].
Qed.

(** ** The first pass of fwd_gradients *)
Section Forward.
Variables (env : nat -> R) (g : graph) (ys xs stops : list nat).
Hypothesis Ty : typed O.
Hypothesis U : user_graph O g.
Hypothesis Hy : nodes_of O g ys.
Hypothesis Hx : nodes_of O g xs.
Let us := seq (length g) (length ys).
Let G0 : graph := repeat Nan (length ys) ++ g.
Let st1 := back O stops (length G0) (seed O (G0, fun _ => None) (zip ys us)).

Lemma len0 : length G0 = (length ys + length g)%nat.
Proof. unfold G0. rewrite app_length, repeat_length. reflexivity. Qed.
Lemma nans_wf k (G : graph) : wf O G -> wf O (repeat Nan k ++ G).
Proof. intro W. induction k as [|k IH]; [exact W|]. cbn. split; [intros a []|]. split; [discriminate|exact IH]. Qed.
Lemma nans_at k (G : graph) i : (length G <= i)%nat -> (i < k + length G)%nat -> node_at (repeat Nan k ++ G) i = Some Nan.
Proof.
  induction k as [|k IH]; intros H1 H2; [lia|]. cbn [repeat app Model.node_at].
  rewrite app_length, repeat_length. destruct (Nat.eqb_spec i (k + length G)) as [->|N]; [reflexivity|].
  apply IH; lia.
Qed.
Lemma W0 : wf O G0.
Proof. apply nans_wf, U. Qed.
Lemma at0 i : (i < length g)%nat -> node_at G0 i = node_at g i.
Proof. intro H. unfold G0. apply node_at_ext, H. Qed.
Lemma at0_nan i : (length g <= i)%nat -> (i < length G0)%nat -> node_at G0 i = Some Nan.
Proof. rewrite len0. intros H1 H2. unfold G0. apply nans_at; lia. Qed.
Lemma arg0 i nd a : node_at G0 i = Some nd -> In a (args_of O nd) -> (i < length g)%nat /\ node_at g i = Some nd /\ (a < length g)%nat.
Proof.
  intros E Ha. pose proof (node_at_lt O _ _ _ E) as Hi. destruct (Nat.lt_ge_cases i (length g)) as [H|H].
  - rewrite at0 in E by exact H. split; [exact H|]. split; [exact E|].
    destruct U as (W & _). apply (wf_at O g i nd W E) in Ha. lia.
  - rewrite at0_nan in E by assumption. injection E as <-. destruct Ha.
Qed.
Lemma pairs0 y u : In (y, u) (zip ys us) -> (y < length G0)%nat /\ (u < length G0)%nat.
Proof.
  intro I. apply zip_in in I. destruct I as (A & B). unfold us in B. rewrite in_seq in B. rewrite len0.
  specialize (Hy y A). lia.
Qed.

Lemma first_tangent u x : (length g <= u)%nat -> (u < length G0)%nat -> (x < length g)%nat ->
  acc O (itan env (delta u)) st1 x
  = rsum (map (fun p => itan env (delta u) G0 (snd p) * tan stops (at_rest env g) (delta x) g (fst p)) (zip ys us)).
Proof.
  intros Hu1 Hu2 Hxg.
  assert (V0 : forall j, (j < length g)%nat -> delta u j = 0).
  { intros j Hj. unfold delta. destruct (Nat.eqb_spec j u); [lia|reflexivity]. }
  assert (V1 : forall j, (length G0 <= j)%nat -> delta u j = 0).
  { intros j Hj. unfold delta. destruct (Nat.eqb_spec j u); [lia|reflexivity]. }
  assert (Lg : (length g <= length G0)%nat) by (rewrite len0; lia).
  assert (Z : forall G q, coefficient O (length G0) (length g) G0 G q -> (length G0 <= length G)%nat -> itan env (delta u) G q = 0).
  { intros G q ((h & Eh) & [Hq|(p & args & E & Hq & Ha)]) HG.
    - rewrite Eh. unfold G0. rewrite app_assoc. rewrite (stable_ext O (itan env (delta u))) by (apply itan_stable || exact Hq).
      apply itan_zero, V0.
    - destruct (node_split G q _ E) as (h' & G' & EG & EL). rewrite EG.
      change (h' ++ Apply p args :: G') with (h' ++ [Apply p args] ++ G').
      rewrite (stable_ext O (itan env (delta u)) h' ([Apply p args] ++ G')) by (apply itan_stable || (cbn; lia)).
      cbn [app]. rewrite <- EL at 1. rewrite itan_top, EL, V1 by exact Hq. rewrite lin_zero; [ring|].
      intros a Haa. specialize (Ha a Haa).
      assert (E2 : itan env (delta u) G' a = itan env (delta u) G a).
      { rewrite EG. change (h' ++ Apply p args :: G') with (h' ++ [Apply p args] ++ G'). rewrite app_assoc.
        symmetry. apply (stable_ext O (itan env (delta u))); [apply itan_stable|lia]. }
      rewrite E2, Eh. unfold G0. rewrite app_assoc.
      rewrite (stable_ext O (itan env (delta u))) by (apply itan_stable || exact Ha). apply itan_zero, V0. }
  pose proof (pass_ok O (length G0) (length g) (at_rest env) (itan env (delta u)) G0 Lg) as P.
  destruct (P (itan_stable env (delta u)) (moved_stable _ _ _ _ _)) with
    (stops := stops) (v := delta x) (T := tan stops (at_rest env G0) (delta x) G0) (G0 := G0) (l := zip ys us)
    as (_ & E).
  - intros G a b H _ _. rewrite itan_top, V1 by exact H. cbn [GraphProofs.lin]. ring.
  - intros G a q H Ha Hq Hc. rewrite itan_top, V1 by exact H. cbn [GraphProofs.lin].
    rewrite (Z G q Hc H). ring.
  - intros G p args H _. unfold at_rest, Spec.at_rest. rewrite moved_top. cbn [mem existsb real_node]. change (no_move (length G)) with 0. ring.
  - reflexivity.
  - reflexivity.
  - intros i nd Hi a Ha. apply (arg0 i nd a Hi Ha).
  - intros i nd Hi a Ha. apply (wf_at O G0 i nd W0 Hi), Ha.
  - intros i nd Hi. apply tan_at; [exact W0|exact Hi].
  - exact pairs0.
  - fold st1 in E.
    assert (E2 : total (length G0) (fun j => acc O (itan env (delta u)) st1 j * delta x j) = acc O (itan env (delta u)) st1 x).
    { rewrite <- (total_one (length G0) x (acc O (itan env (delta u)) st1 x)) by lia. apply total_ext. intros j _.
      unfold delta at 2. destruct (Nat.eqb_spec j x) as [->|]; ring. }
    rewrite <- E2, E. f_equal. apply map_ext_in. intros (y, u') I. cbn [fst snd]. f_equal.
    apply zip_in in I. destruct I as (Iy & _). specialize (Hy y Iy). unfold G0.
    rewrite (stable_ext O (tan stops (at_rest env (repeat Nan (length ys) ++ g)) (delta x))) by (apply tan_stable || exact Hy).
    apply tan_values; [apply U|]. intros j Hj. unfold at_rest, Spec.at_rest. apply (stable_ext O); [apply moved_stable|exact Hj].
Qed.
Lemma itan_u u u' : (length g <= u')%nat -> (u' < length G0)%nat -> itan env (delta u) G0 u' = delta u u'.
Proof.
  intros H1 H2. pose proof (at0_nan u' H1 H2) as E.
  rewrite itan_tan by exact W0. rewrite (tan_at O [] _ _ G0 u' Nan W0 E). cbn. ring.
Qed.
Lemma pick_seq (f : nat -> R) s l k y : nth_error l k = Some y ->
  rsum (map (fun p => delta (s + k) (snd p) * f (fst p)) (zip l (seq s (length l)))) = f y.
Proof.
  revert s k. induction l as [|a l IH]; intros s k H; [destruct k; discriminate|].
  cbn [length seq zip map fst snd]. rewrite rsum_cons. cbn [fst snd]. destruct k as [|k].
  - injection H as ->. rewrite Nat.add_0_r. unfold delta at 1. rewrite Nat.eqb_refl.
    assert (Z : rsum (map (fun p => delta s (snd p) * f (fst p)) (zip l (seq (S s) (length l)))) = 0).
    { clear. assert (H : forall t, (s < t)%nat -> rsum (map (fun p => delta s (snd p) * f (fst p)) (zip l (seq t (length l)))) = 0).
      { induction l as [|a l IH]; intros t Ht; [reflexivity|]. cbn [length seq zip map]. rewrite rsum_cons, IH by lia. cbn [fst snd].
        unfold delta. destruct (Nat.eqb_spec t s); [lia|ring]. }
      apply H. lia. }
    rewrite Z. ring.
  - replace (s + S k)%nat with (S s + k)%nat by lia. rewrite (IH (S s) k H).
    unfold delta. destruct (Nat.eqb_spec s (S s + k)); [lia|ring].
Qed.
Lemma first_derivative k y x : nth_error ys k = Some y -> In x xs ->
  acc O (itan env (delta (length g + k))) st1 x = tan stops (at_rest env g) (delta x) g y.
Proof.
  intros Hk Hin. assert (Lk : (k < length ys)%nat) by (apply nth_error_Some; congruence).
  rewrite first_tangent by (rewrite ?len0; try lia; apply Hx, Hin).
  rewrite <- (pick_seq (fun y => tan stops (at_rest env g) (delta x) g y) (length g) ys k y Hk). f_equal.
  apply map_ext_in. intros (y', u') I. cbn [fst snd]. f_equal. apply itan_u.
  - apply zip_in in I. destruct I as (_ & B). unfold us in B. rewrite in_seq in B. lia.
  - apply (pairs0 y' u' I).
Qed.

(** *** Shape of the first pass *)
Definition structured (G : graph) : Prop :=
  forall i nd, node_at G i = Some nd ->
    (forall a b, nd = Mul a b -> clean O G b = true) /\
    (forall p args, nd = Apply p args -> forall a, In a args -> clean O G a = true).
Lemma structured_cons nd G : structured G ->
  (forall a b, nd = Mul a b -> clean O G b = true) ->
  (forall p args, nd = Apply p args -> forall a, In a args -> clean O G a = true) ->
  structured (nd :: G).
Proof.
  intros S1 H1 H2 i nd' E. cbn in E.
  assert (A : (forall a b, nd' = Mul a b -> clean O G b = true) /\
    (forall p args, nd' = Apply p args -> forall a, In a args -> clean O G a = true)).
  { destruct (Nat.eqb i (length G)); [injection E as <-; split; assumption|apply (S1 i nd' E)]. }
  assert (C : forall a, clean O G a = true -> clean O (nd :: G) a = true).
  { intros a Ha. rewrite clean_stable; [exact Ha|apply clean_lt, Ha]. }
  split.
  - intros a b Eab. apply C. apply (proj1 A a b Eab).
  - intros p args Ep a Ha. apply C. apply (proj2 A p args Ep a Ha).
Qed.
Lemma clean0 a : (a < length g)%nat -> clean O G0 a = true.
Proof. intro H. unfold G0. rewrite clean_ext by exact H. apply user_clean; assumption. Qed.
Lemma structured0 : structured G0.
Proof.
  intros i nd E. split.
  - intros a b ->. apply clean0, (arg0 i _ b E). cbn. auto.
  - intros p args -> a Ha. apply clean0, (arg0 i _ a E Ha).
Qed.
Lemma grown_structured G : grown O G0 G -> structured G.
Proof.
  induction 1 as [|G a b Gr IH Ha Hb|G nd Gr IH Hp|G a b Gr IH Ha Hb].
  - exact structured0.
  - apply structured_cons; [exact IH|discriminate|discriminate].
  - destruct Hp as (i & p & k & args & -> & E). apply structured_cons; [exact IH|discriminate|].
    intros p' args' [= <- <-] a Ha. destruct (grown_ext O _ _ Gr) as (h & ->).
    destruct (arg0 i _ a E Ha) as (_ & _ & L). rewrite clean_ext by (rewrite len0; lia). apply clean0, L.
  - apply structured_cons; [exact IH| |discriminate].
    intros a' b' [= <- <-]. destruct Hb as [(i & nd & E & Hb)|(nd & E & (i & p & k & args & -> & E2))].
    + destruct (arg0 i _ b E Hb) as (_ & _ & L). destruct (grown_ext O _ _ Gr) as (h & ->).
      rewrite clean_ext by (rewrite len0; lia). apply clean0, L.
    + rewrite (clean_at G b _ (grown_wf G0 G Ty W0 Gr) E). cbn. apply forallb_forall.
      apply (proj2 (IH b _ E) _ args eq_refl).
Qed.

Lemma uses_more nd (G : graph) c u : uses O [] G c u -> uses O [] (nd :: G) c u.
Proof.
  induction 1 as [x|y nd' a x E N Ha _ IH]; [constructor|]. apply (uses_arg O [] _ y nd' a); auto.
  cbn. pose proof (node_at_lt O _ _ _ E). destruct (Nat.eqb_spec y (length G)); [lia|exact E].
Qed.
Lemma first_shape : grown O G0 (fst st1) /\ (forall j c, snd st1 j = Some c -> (c < length (fst st1))%nat) /\
  forall k y x, nth_error ys k = Some y -> uses O stops g y x ->
    exists c, snd st1 x = Some c /\ uses O [] (fst st1) c (length g + k).
Proof.
  destruct (pass_plain G0 stops (zip ys us) W0 pairs0) as (A & B & _). fold st1 in A, B.
  split; [exact A|]. split; [exact B|]. intros k y x Hk Ux.
  assert (Top : forall nd' (G : graph), node_at (nd' :: G) (length G) = Some nd') by (intros; cbn; rewrite Nat.eqb_refl; reflexivity).
  destruct (pass_shape O G0) with (P := fun (G : graph) (c : nat) => uses O [] G c (length g + k))
    (C := fun (_ : graph) (_ : nat) => True) (K := fun _ : nat => False) (stops := stops) (l := zip ys us)
    as (_ & Cv); try tauto.
  - intros i nd E a Ha. apply (wf_at O G0 i nd W0 E), Ha.
  - intros nd G c _. apply uses_more.
  - intros G b c _ _ H. apply (uses_arg O [] _ _ (Add b c) b); [apply Top|intros []|cbn; auto|apply uses_more, H].
  - intros G b c _ _ H. apply (uses_arg O [] _ _ (Add b c) c); [apply Top|intros []|cbn; auto|apply uses_more, H].
  - intros G b c _ H. apply (uses_arg O [] _ _ (Mul b c) b); [apply Top|intros []|cbn; auto|apply uses_more, H].
  - intros y' g' I. destruct (pairs0 y' g' I). tauto.
  - fold st1 in Cv. apply (Cv y (length g + k)%nat x).
    + unfold us. clear -Hk. generalize (length g) as s. revert k Hk.
      induction ys as [|a l IH]; intros k Hk s; [destruct k; discriminate|]. cbn.
      destruct k as [|k]; [injection Hk as ->; left; f_equal; lia|]. right.
      replace (s + S k)%nat with (S s + k)%nat by lia. apply IH, Hk.
    + constructor.
    + clear -Ux U. induction Ux as [x|y nd a x E N Ha _ IH]; [constructor|].
      apply (uses_arg O stops G0 y nd a); auto. unfold G0. rewrite node_at_ext; [exact E|apply (node_at_lt O _ _ _ E)].
Qed.

(** *** Zeros for missing gradients *)
Lemma zeros_ok l : forall G, let (G', ds) := zeros_for_none O G l in
  (exists h, G' = h ++ G) /\ length ds = length l /\
  ((forall d, In (Some d) l -> (d < length G)%nat) -> forall d, In d ds -> (d < length G')%nat) /\
  (wf O G -> wf O G') /\ (structured G -> structured G') /\
  (forall env v, (forall d, In (Some d) l -> (d < length G)%nat) -> (forall j, (length G <= j)%nat -> v j = 0) ->
     Forall2 (fun r d => itan env v G' d = match r with Some c => itan env v G c | None => 0 end) l ds) /\
  (forall c, In (Some c) l -> In c ds).
Proof.
  induction l as [|[d|] l IH]; intro G; cbn [zeros_for_none].
  - split; [exists []; reflexivity|]. split; [reflexivity|]. split; [intros _ d []|]. split; [trivial|]. split; [trivial|]. split; [intros; constructor|intros c []].
  - specialize (IH G). destruct (zeros_for_none O G l) as [G' ds]. destruct IH as ((h & Eh) & L & A & B & C & D & E).
    split; [exists h; exact Eh|]. split; [cbn; congruence|]. split; [|split; [exact B|split; [exact C|split]]].
    + intros H d' [<-|I]; [rewrite Eh, app_length; specialize (H d (or_introl eq_refl)); lia|].
      apply A; [|exact I]. intros; apply H; right; assumption.
    + intros env0 v H Hv. constructor.
      * rewrite Eh. apply (stable_ext O); [apply itan_stable|apply H; left; reflexivity].
      * apply D; [|exact Hv]. intros; apply H; right; assumption.
    + intros c [[= <-]|I]; [left; reflexivity|right; apply E, I].
  - specialize (IH (Const 0 :: G)). destruct (zeros_for_none O (Const 0 :: G) l) as [G' ds]. destruct IH as ((h & Eh) & L & A & B & C & D & E).
    split; [exists (h ++ [Const 0]); rewrite Eh, <- app_assoc; reflexivity|]. split; [cbn; congruence|]. split; [|split; [|split; [|split]]].
    + intros H d' [<-|I]; [rewrite Eh, app_length; cbn; lia|].
      apply A; [|exact I]. intros d0 I0. cbn. specialize (H d0 (or_intror I0)). lia.
    + intro W. apply B. split; [intros a []|]. split; [discriminate|exact W].
    + intro S1. apply C. apply structured_cons; [exact S1|discriminate|discriminate].
    + intros env0 v H Hv. constructor.
      * rewrite Eh, (stable_ext O) by (apply itan_stable || (cbn; lia)). rewrite itan_top, Hv by lia. cbn. ring.
      * assert (H' : forall d, In (Some d) l -> (d < length G)%nat) by (intros; apply H; right; assumption).
        assert (Hv' : forall j, (length (Const (O := O) 0 :: G) <= j)%nat -> v j = 0) by (intros j Hj; apply Hv; cbn in Hj; lia).
        assert (H2 : forall d, In (Some d) l -> (d < length (Const (O := O) 0 :: G))%nat) by (intros d0 I0; cbn; specialize (H' d0 I0); lia).
        specialize (D env0 v H2 Hv'). clear -D H'. induction D as [|r d l ds Hd _ IHD]; constructor.
        -- rewrite Hd. destruct r as [c|]; [|reflexivity]. apply itan_stable, H'. left; reflexivity.
        -- apply IHD. intros; apply H'; right; assumption.
    + intros c [[=]|I]. right. apply E, I.
Qed.

(** *** The second pass *)
Variable grad_xs : list nat.
Hypothesis Hgx : nodes_of O g grad_xs.
Hypothesis Lgx : length grad_xs = length xs.

Lemma sum_along (F : nat -> R) (J : nat -> R) (w : nat -> R) ds : Forall2 (fun x d => J d = F x) xs ds ->
  rsum (map (fun p => w (snd p) * J (fst p)) (zip ds grad_xs)) = rsum (map2 (fun x c => c * F x) xs (map w grad_xs)).
Proof.
  clear. intro H. revert grad_xs. induction H as [|x d xs ds Hd _ IH]; intros [|c cs]; try reflexivity.
  cbn [zip map]. rewrite map2_cons, !rsum_cons, IH. cbn [fst snd]. rewrite Hd. ring.
Qed.

Lemma forward_ok :
  let (G', rs) := fwd_gradients O g ys xs grad_xs stops in
  forall k y, nth_error ys k = Some y ->
    exists r, nth_error rs k = Some r /\
      stands_for O env G' r (tan stops (at_rest env g) (along xs (map (at_rest env g) grad_xs)) g y) /\
      ((exists x, In x xs /\ uses O stops g y x) -> r <> None).
Proof.
  unfold fwd_gradients. unfold gradients at 1. fold us. fold G0. fold st1.
  destruct first_shape as (Gr1 & Lt1 & Us1).
  pose proof (zeros_ok (map (snd st1) xs) (fst st1)) as Z.
  destruct (zeros_for_none O (fst st1) (map (snd st1) xs)) as [G2 ds].
  destruct Z as ((h2 & E2) & Lds & Zlt & Zwf & Zst & Ztan & Zin).
  destruct (grown_ext O _ _ Gr1) as (h1 & E1).
  assert (Lt1' : forall d, In (Some d) (map (snd st1) xs) -> (d < length (fst st1))%nat).
  { intros d I. apply in_map_iff in I. destruct I as (x & E & _). apply (Lt1 x d E). }
  assert (W2 : wf O G2) by (apply Zwf, (grown_wf G0); [exact Ty|exact W0|exact Gr1]).
  assert (S2 : structured G2) by (apply Zst, grown_structured, Gr1).
  assert (L2 : (length G0 <= length G2)%nat) by (rewrite E2, E1, !app_length; lia).
  assert (Hd : forall d, In d ds -> (d < length G2)%nat) by (apply Zlt, Lt1').
  assert (Eg : G2 = (h2 ++ h1 ++ repeat Nan (length ys)) ++ g).
  { rewrite E2, E1. unfold G0. rewrite !app_assoc. reflexivity. }
  assert (Hl2 : forall d c, In (d, c) (zip ds grad_xs) -> (d < length G2)%nat /\ (c < length G2)%nat).
  { intros d c I. apply zip_in in I. split; [apply Hd, I|]. pose proof (Hgx c (proj2 I)). rewrite len0 in L2. lia. }
  unfold gradients. set (st2 := back O [] (length G2) (seed O (G2, fun _ => None) (zip ds grad_xs))).
  intros k y Hk. assert (Lk : (k < length ys)%nat) by (apply nth_error_Some; congruence).
  set (u := (length g + k)%nat). assert (Hu : (u < length G0)%nat) by (rewrite len0; unfold u; lia).
  exists (snd st2 u). split.
  { rewrite nth_error_map. unfold us. assert (En : nth_error (seq (length g) (length ys)) k = Some u).
    { rewrite (nth_error_nth' _ 0%nat) by (rewrite seq_length; exact Lk). rewrite seq_nth by exact Lk. reflexivity. }
    rewrite En. reflexivity. }
  assert (Nu : node_at G2 u = Some Nan).
  { rewrite E2, E1, app_assoc, node_at_ext by exact Hu. apply at0_nan; [unfold u; lia|exact Hu]. }
  (* which nodes the second pass adds, and that they do not touch NaN *)
  destruct (pass_shape O G2) with (P := fun (_ : graph) (_ : nat) => True)
    (C := fun (G : graph) (c : nat) => clean O G c = true)
    (K := fun j => clean O G2 j = false) (stops := @nil nat) (l := zip ds grad_xs) as (Gd & Cv); try tauto.
  { intros i nd E a Ha. apply (wf_at O G2 i nd W2 E), Ha. }
  { intros nd G c Hc H. rewrite clean_stable by exact Hc. exact H. }
  { intros G b c Hb Hc. rewrite clean_top. cbn. rewrite Hb, Hc. reflexivity. }
  { intros G b c Hb Hc. rewrite clean_top. cbn. rewrite Hb, Hc. reflexivity. }
  { intros i nd a E Ha Ka. rewrite (clean_at G2 i nd W2 E).
    assert (F : forallb (clean O G2) (args_of O nd) = false).
    { destruct (forallb (clean O G2) (args_of O nd)) eqn:F; [|reflexivity].
      rewrite forallb_forall in F. rewrite (F a Ha) in Ka. discriminate. }
    destruct nd; try exact F; reflexivity. }
  { intros i a b E _. apply (proj1 (S2 i _ E) a b eq_refl). }
  { intros i a b E Kb. rewrite (proj1 (S2 i _ E) a b eq_refl) in Kb. discriminate. }
  { intros i p args a E Ha Ka. rewrite (proj2 (S2 i _ E) p args eq_refl a Ha) in Ka. discriminate. }
  { intros d c I. destruct (Hl2 d c I) as (A & B). split; [exact A|]. split; [exact B|]. intros _.
    rewrite Eg, clean_ext; [apply user_clean; [exact U|]|]; apply Hgx; apply zip_in in I; apply I. }
  fold st2 in Gd, Cv. destruct Gd as (Gr2 & Lt2 & Cl2).
  assert (Ku : clean O G2 u = false) by (rewrite (clean_at G2 u Nan W2 Nu); reflexivity).
  split.
  - (* the value *)
    pose proof (grad_values env no_move G2 W2 (fun _ _ => eq_refl) [] (zip ds grad_xs) u Hl2 ltac:(lia)) as V.
    cbv zeta in V. fold st2 in V. fold (at_rest env G2) in V.
    assert (Ve : acc O (moved env [] no_move no_move) st2 u
       = tan stops (at_rest env g) (along xs (map (at_rest env g) grad_xs)) g y).
    { rewrite V, tan_along.
      rewrite (map_ext_in _ (fun p => at_rest env g (snd p) * itan env (delta u) G2 (fst p))).
      2: { intros (d, c) I. cbn [fst snd]. rewrite itan_tan by exact W2. f_equal.
           rewrite Eg. unfold at_rest, Spec.at_rest. apply (stable_ext O); [apply moved_stable|].
           apply Hgx. apply zip_in in I. apply I. }
      apply (sum_along (fun x => tan stops (at_rest env g) (delta x) g y) (itan env (delta u) G2)).
      assert (Hv : forall j, (length (fst st1) <= j)%nat -> delta u j = 0).
      { intros j Hj. unfold delta. destruct (Nat.eqb_spec j u); [|reflexivity].
        rewrite E1, app_length in Hj. lia. }
      specialize (Ztan env (delta u) Lt1' Hv).
      assert (F1 : forall x, In x xs -> acc O (itan env (delta u)) st1 x = tan stops (at_rest env g) (delta x) g y)
        by (intros x Ix; apply first_derivative; assumption).
      clear -Ztan F1. revert ds Ztan. induction xs as [|x l IH]; intros ds Ztan; inversion Ztan as [|r d rs' ds' Hrd Hrest]; subst; constructor.
      - rewrite Hrd. apply (F1 x). left; reflexivity.
      - apply IH; [intros; apply F1; right; assumption|exact Hrest]. }
    unfold stands_for. unfold acc in Ve. destruct (snd st2 u) as [c|] eqn:Ec.
    + rewrite <- Ve. apply clean_value, (Cl2 u c Ku Ec).
    + symmetry. exact Ve.
  - (* it is there *)
    intros (x & Ix & Ux) En.
    destruct (Us1 k y x Hk Ux) as (c & Ec & Uc).
    assert (Ic : In c ds) by (apply Zin; apply in_map_iff; exists x; split; assumption).
    assert (Uc2 : uses O [] G2 c u).
    { rewrite E2. clear -Uc. induction h2 as [|nd h IH]; [exact Uc|]. cbn. apply uses_more, IH. }
    assert (Ip : exists gx, In (c, gx) (zip ds grad_xs)).
    { assert (Ll : length ds = length grad_xs) by (rewrite Lds, map_length; symmetry; exact Lgx).
      clear -Ic Ll. revert grad_xs Ll. induction ds as [|d l IH]; intros [|gx gs] Ll; try discriminate; [destruct Ic|].
      destruct Ic as [->|Ic]; [exists gx; left; reflexivity|]. destruct (IH Ic gs) as (gx' & I); [cbn in Ll; lia|].
      exists gx'. right. exact I. }
    destruct Ip as (gx & Ip). destruct (Cv c gx u Ip Logic.I Uc2) as (c' & Ec' & _). congruence.
Qed.
End Forward.
End Graphs.
