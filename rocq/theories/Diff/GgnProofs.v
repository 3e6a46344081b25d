(** A reverse pass on a graph with placeholders, from nodes that are not computed from them. *)
From Coq Require Import List Arith Bool Reals Lra Lia.
From Coquelicot Require Import Coquelicot.
From Verif.Base Require Import Py.
From Verif.Curv Require Import Model Spec.
From Verif.Diff Require Import Model Spec GraphProofs DerivProofs ShapeProofs JacProofs HessProofs GnProofs GnSpec GnProps Ggn GgnSpec.
Import ListNotations.
Open Scope list_scope.
Open Scope R_scope.

Section Graphs.
Variable O : ops.
Notation graph := (graph O).
Notation state := (state O).
Notation clean := (clean O).

Lemma all_some_in {A} (l : list (option A)) m : all_some l = Some m -> forall o, In o l -> exists x, o = Some x.
Proof.
  revert m. induction l as [|[x|] l IH]; intros m E o [].
  - subst. eauto.
  - cbn in E. destruct (all_some l) eqn:F; [|discriminate]. eapply IH; eauto.
  - cbn in E. discriminate.
  - cbn in E. discriminate.
Qed.
Lemma value_clean env G i v : value O env G i = Some v -> clean G i = true.
Proof.
  revert i v. induction G as [|nd G IH]; intros i v; [discriminate|]. cbn [value ShapeProofs.clean].
  destruct (Nat.eqb i (length G)); [|apply IH].
  destruct nd as [k|r| |p args|a b|a b]; cbn [args_of node_value forallb]; try reflexivity; try discriminate.
  - destruct (all_some (map (value O env G) args)) as [l|] eqn:E; [|discriminate]. intros _.
    apply forallb_forall. intros a Ha. destruct (all_some_in _ _ E (value O env G a)) as (x & Ex); [now apply in_map|].
    exact (IH _ _ Ex).
  - destruct (value O env G a) eqn:Ea; [|discriminate]. destruct (value O env G b) eqn:Eb; [|discriminate].
    intros _. now rewrite (IH _ _ Ea), (IH _ _ Eb).
  - destruct (value O env G a) eqn:Ea; [|discriminate]. destruct (value O env G b) eqn:Eb; [|discriminate].
    intros _. now rewrite (IH _ _ Ea), (IH _ _ Eb).
Qed.

Section Tidy.
Variable G : graph.
Hypothesis W : wf O G.
Definition tidy (st : state) : Prop :=
  (exists h, fst st = h ++ G) /\ forall j c, snd st j = Some c -> clean (fst st) c = true /\ clean G j = true.

Lemma clean_more nd (H : graph) c : clean H c = true -> clean (nd :: H) c = true.
Proof. intro K. rewrite clean_stable; [exact K|]. exact (clean_lt O _ _ K). Qed.
Lemma clean_down st i : tidy st -> clean G i = true -> clean (fst st) i = true.
Proof. intros ((h & ->) & _) K. rewrite clean_ext; [exact K|]. exact (clean_lt O _ _ K). Qed.
Lemma tidy_emit nd H ac : tidy (H, ac) -> tidy (nd :: H, ac).
Proof.
  intros ((h & E) & K). split; [exists (nd :: h); cbn in *; now rewrite E|].
  intros j c Ec. destruct (K j c Ec). split; [apply clean_more|]; assumption.
Qed.
Lemma tidy_contribute st a c : tidy st -> clean (fst st) c = true -> clean G a = true ->
  tidy (contribute O st a c) /\ (forall d, clean (fst st) d = true -> clean (fst (contribute O st a c)) d = true).
Proof.
  intros T Kc Ka. destruct st as [H ac]. pose proof T as ((h & E) & K). cbn [fst snd] in *. unfold contribute.
  destruct (ac a) as [b|] eqn:Eb.
  - destruct (K a b Eb) as (Kb & _). split; [split|].
    + exists (Add b c :: h). cbn. now rewrite E.
    + intros j d. cbn [fst snd]. unfold upd. destruct (Nat.eqb_spec j a) as [->|_].
      * intros [= <-]. split; [|exact Ka]. rewrite clean_top. cbn. now rewrite Kb, Kc.
      * intro Ed. destruct (K j d Ed). split; [now apply clean_more|assumption].
    + intros d Kd. cbn [fst]. now apply clean_more.
  - split; [split|].
    + exists h. exact E.
    + intros j d. cbn [fst snd]. unfold upd. destruct (Nat.eqb_spec j a) as [->|_]; [intros [= <-]; now split|apply K].
    + intros d Kd. exact Kd.
Qed.
Lemma tidy_apply_back p all gi : (forall a, In a all -> clean G a = true) ->
  forall args k st, tidy st -> clean (fst st) gi = true -> (forall a, In a args -> In a all) ->
    tidy (apply_back O p all gi k args st).
Proof.
  intro Ha. induction args as [|a args IH]; intros k [H ac] T Kg Hin; [exact T|].
  cbn [apply_back]. set (H1 := Apply (dp O p k) all :: H).
  assert (T1 : tidy (Mul gi (length H) :: H1, ac)) by (now apply tidy_emit, tidy_emit).
  assert (KA : clean H1 (length H) = true).
  { unfold H1. rewrite clean_top. cbn. apply forallb_forall. intros b Hb. apply (clean_down (H, ac)); [exact T|now apply Ha]. }
  destruct (tidy_contribute (Mul gi (length H) :: H1, ac) a (length H1) T1) as (T2 & K2).
  - cbn [fst]. rewrite clean_top. cbn [args_of forallb]. rewrite KA. unfold H1. rewrite (clean_more _ _ _ Kg). reflexivity.
  - apply Ha, Hin. now left.
  - apply IH; [exact T2| |intros b Hb; apply Hin; now right]. apply K2. cbn [fst]. now apply clean_more, clean_more.
Qed.
Lemma tidy_propagate i st gi nd : tidy st -> node_at O G i = Some nd -> snd st i = Some gi -> tidy (propagate O st gi nd).
Proof.
  intros T Ei Eg. destruct (proj2 T i gi Eg) as (Kg & Ki). rewrite (clean_at O G i nd W Ei) in Ki.
  destruct nd as [k|r| |p args|a b|a b]; cbn [propagate]; try exact T.
  - cbn [args_of] in Ki. rewrite forallb_forall in Ki. apply tidy_apply_back; auto.
  - cbn in Ki. rewrite !andb_true_iff in Ki. destruct Ki as (Ka & Kb & _).
    destruct (tidy_contribute st a gi T Kg Ka) as (T1 & K1). apply tidy_contribute; [exact T1|now apply K1|exact Kb].
  - cbn in Ki. rewrite !andb_true_iff in Ki. destruct Ki as (Ka & Kb & _). destruct st as [H ac]. cbn [fst snd] in *.
    pose proof (tidy_emit (Mul gi b) H ac T) as T1.
    destruct (tidy_contribute (Mul gi b :: H, ac) a (length H) T1) as (T2 & K2).
    + cbn [fst]. rewrite clean_top. cbn [args_of forallb]. rewrite Kg. pose proof (clean_down (H, ac) b T Kb) as Q. cbn [fst] in Q. now rewrite Q.
    + exact Ka.
    + destruct (contribute O (Mul gi b :: H, ac) a (length H)) as [H1 ac1] eqn:E. cbn [fst snd] in *.
      apply tidy_contribute; [now apply tidy_emit| |exact Kb]. cbn [fst]. rewrite clean_top. cbn [args_of forallb].
      rewrite (K2 gi) by (now apply clean_more). pose proof (clean_down (H1, ac1) a T2 Ka) as Q. cbn [fst] in Q. now rewrite Q.
Qed.
Lemma tidy_back stops i : forall st, (i <= length G)%nat -> tidy st -> tidy (back O stops i st).
Proof.
  induction i as [|i IH]; intros st Hi T; [exact T|]. cbn [back]. apply IH; [lia|].
  destruct (snd st i) as [gi|] eqn:Eg; [|exact T]. destruct (mem i stops); [exact T|].
  destruct (node_at_some O G i) as (nd & En); [lia|]. destruct T as ((h & E) & K).
  rewrite E, node_at_ext, En by lia. apply (tidy_propagate i); [split; [now exists h|exact K]|exact En|exact Eg].
Qed.
Lemma tidy_seed l : forall st, tidy st -> (forall y g, In (y, g) l -> clean G y = true /\ clean G g = true) -> tidy (seed O st l).
Proof.
  induction l as [|[y g] l IH]; intros st T H; [exact T|]. cbn [seed].
  destruct (H y g (or_introl eq_refl)) as (Ky & Kg). apply IH; [|intros; apply H; now right].
  apply tidy_contribute; [exact T|now apply clean_down|exact Ky].
Qed.
End Tidy.

Lemma gradients_clean env G ys xs gys stops : wf O G ->
  (forall y, In y ys -> clean G y = true) -> (forall g, In g gys -> clean G g = true) -> nodes_of O G xs ->
  let (G', rs) := gradients O G ys xs gys stops in
  Forall2 (fun x r => stands_for O env G' r
      (rsum (map (fun p => at_rest O env G (snd p) * tan O stops (at_rest O env G) (delta x) G (fst p)) (zip ys gys)))) xs rs.
Proof.
  intros W Hy Hg Hx. unfold gradients.
  set (st := back O stops (length G) (seed O (G, fun _ => None) (zip ys gys))).
  assert (T : tidy G st).
  { unfold st. apply tidy_back; [exact W|lia|]. apply tidy_seed.
    - split; [now exists []|discriminate].
    - intros y g I. apply zip_in in I. split; [apply Hy|apply Hg]; apply I. }
  assert (Hl : forall y g, In (y, g) (zip ys gys) -> (y < length G)%nat /\ (g < length G)%nat).
  { intros y g I. apply zip_in in I. split; apply (clean_lt O); [apply Hy|apply Hg]; apply I. }
  induction xs as [|x xs IH]; cbn [map]; constructor.
  - pose proof (grad_values O env no_move G W (fun _ _ => eq_refl) stops (zip ys gys) x Hl (Hx x (or_introl eq_refl))) as V.
    cbv zeta in V. fold st in V. fold (at_rest O env G) in V. rewrite <- V.
    unfold acc, stands_for. destruct (snd st x) as [c|] eqn:E; [|reflexivity].
    apply clean_value. apply (proj2 T x c E).
  - apply IH. intros i Hi. apply Hx. now right.
Qed.

(** The graph after a forward pass *)
Lemma gradients_wf G ys xs gys stops : typed O -> wf O G ->
  (forall y g, In (y, g) (zip ys gys) -> (y < length G)%nat /\ (g < length G)%nat) ->
  let (G', rs) := gradients O G ys xs gys stops in
  wf O G' /\ (exists h, G' = h ++ G) /\ forall d, In (Some d) rs -> (d < length G')%nat.
Proof.
  intros Ty W Hl. unfold gradients. destruct (pass_plain O G stops (zip ys gys) W Hl) as (Gr & Lt & _).
  split; [exact (grown_wf O G _ Ty W Gr)|]. split; [exact (grown_ext O _ _ Gr)|].
  intros d I. apply in_map_iff in I. destruct I as (x & E & _). exact (Lt x d E).
Qed.
Lemma fwd_wf G ys xs gxs stops : typed O -> wf O G -> nodes_of O G ys -> nodes_of O G gxs ->
  let (G', rs) := fwd_gradients O G ys xs gxs stops in wf O G' /\ exists h, G' = h ++ G.
Proof.
  intros Ty W Hy Hg. unfold fwd_gradients.
  assert (W0 : wf O (repeat Nan (length ys) ++ G)) by (now apply nans_wf).
  assert (L0 : length (repeat Nan (length ys) ++ G) = (length ys + length G)%nat) by (now rewrite app_length, repeat_length).
  pose proof (gradients_wf (repeat Nan (length ys) ++ G) ys xs (seq (length G) (length ys)) stops Ty W0) as A.
  destruct (gradients O (repeat Nan (length ys) ++ G) ys xs (seq (length G) (length ys)) stops) as [G1 ds].
  destruct A as (W1 & (h1 & E1) & L1).
  { intros y g I. apply zip_in in I. destruct I as (Iy & Ig). apply in_seq in Ig. specialize (Hy y Iy). lia. }
  pose proof (zeros_ok O ds G1) as Z. destruct (zeros_for_none O G1 ds) as [G2 es].
  destruct Z as ((h2 & E2) & _ & Zlt & Zwf & _).
  assert (Len : (length G <= length G2)%nat) by (rewrite E2, E1, !app_length; lia).
  pose proof (gradients_wf G2 es (seq (length G) (length ys)) gxs [] Ty (Zwf W1)) as B.
  destruct (gradients O G2 es (seq (length G) (length ys)) gxs []) as [G3 rs].
  destruct B as (W3 & (h3 & E3) & _).
  { intros y g I. apply zip_in in I. destruct I as (Iy & Ig). split; [apply (Zlt L1), Iy|]. specialize (Hg g Ig). lia. }
  split; [exact W3|]. exists (h3 ++ h2 ++ h1 ++ repeat Nan (length ys)). rewrite E3, E2, E1. now rewrite !app_assoc.
Qed.
Lemma fwd_length G ys xs gxs stops : length (snd (fwd_gradients O G ys xs gxs stops)) = length ys.
Proof.
  unfold fwd_gradients. destruct (gradients O (repeat Nan (length ys) ++ G) ys xs (seq (length G) (length ys)) stops) as [Ga l].
  destruct (zeros_for_none O Ga l) as [Gb ds]. unfold gradients. cbn [snd]. now rewrite map_length, seq_length.
Qed.

Lemma secs_sym stops x u v G i : smooth O -> wf O G -> secs O stops x u v G i = secs O stops x v u G i.
Proof.
  intro Sm. revert i. induction G as [|nd G IH]; intros i W; [reflexivity|]. destruct W as (W1 & W2 & W3).
  cbn. destruct (Nat.eqb i (length G)); [|now apply IH]. destruct (mem i stops); [reflexivity|].
  apply lin2_sym; [exact Sm|exact W2|]. intros a _. now apply IH.
Qed.

(** The product: the numbers it stands for. *)
Lemma ggn_ok env G loss inputs wrt vecs product : smooth O -> user_graph O G ->
  nodes_of O G inputs -> nodes_of O G wrt -> nodes_of O G vecs -> length vecs = length wrt ->
  (forall z, In z inputs -> exists w, In w wrt /\ uses O wrt G z w) ->
  multiplies_curvature O env G loss inputs product ->
  let x := at_rest O env G in
  let jv := map (tan O wrt x (along wrt (map x vecs)) G) inputs in
  exists G2 rs, multiply_ggn O product G inputs wrt vecs = Ok (G2, rs) /\
    Forall2 (fun x0 r => stands_for O env G2 r
      (rsum (map2 (fun z c => c * secs O inputs x (delta z) (along inputs jv) G loss) inputs
               (map (tan O wrt x (delta x0) G) inputs)))) wrt rs.
Proof.
  intros Sm U Hz Hw Hv Lv Dep HP x jv. pose proof (proj1 U) as W. unfold multiply_ggn, multiply_jacobian.
  pose proof (forward_ok O env G inputs wrt wrt (proj1 Sm) U Hz Hw vecs Hv Lv) as K.
  pose proof (fwd_length G inputs wrt vecs wrt) as L.
  pose proof (fwd_wf G inputs wrt vecs wrt (proj1 Sm) W Hz Hv) as Wf.
  destruct (fwd_gradients O G inputs wrt vecs wrt) as [G1 rs]. cbn [snd] in L. destruct Wf as (W1 & h & E1).
  fold x in K.
  assert (A : exists js, all_some rs = Some js /\ Forall2 (fun j v => value O env G1 j = Some v) js jv).
  { unfold jv. clear -K L Dep. revert rs L K Dep. generalize inputs as l.
    induction l as [|z l IH]; intros [|r rs] L K Dep; try discriminate.
    - exists []. split; [reflexivity|constructor].
    - destruct (K 0%nat z eq_refl) as (r' & [= <-] & St & N).
      destruct (IH rs) as (js & Ea & F).
      + cbn in L. lia.
      + intros k y Hk. exact (K (S k) y Hk).
      + intros y Hy. apply Dep. now right.
      + destruct r as [j|]; [|destruct N; [apply Dep; now left|reflexivity]].
        exists (j :: js). cbn. rewrite Ea. split; [reflexivity|]. constructor; [exact St|exact F]. }
  destruct A as (js & -> & Fj). subst G1.
  assert (Lj : length js = length inputs) by (rewrite (F2_length_map _ _ _ Fj); apply map_length).
  specialize (HP h js jv W1 Lj Fj).
  destruct (product (h ++ G) js) as [G2 us]. destruct HP as ((h2 & E2) & W2 & Fu).
  assert (Lg : (length G <= length G2)%nat) by (rewrite E2, !app_length; lia).
  assert (Eg : G2 = (h2 ++ h) ++ G) by (now rewrite E2, app_assoc).
  unfold multiply_jacobian_transpose.
  pose proof (gradients_clean env G2 inputs wrt us wrt W2) as Q.
  destruct (gradients O G2 inputs wrt us wrt) as [G3 r3]. exists G3, r3. split; [reflexivity|].
  assert (Hu : forall u, In u us -> exists D, value O env G2 u = Some D).
  { clear -Fu. intros u I. induction Fu as [|z u' l m (D & E & _) _ IH]; [destruct I|]. destruct I as [<-|I]; eauto. }
  assert (Q' := Q). clear Q. eapply Forall2_impl_local; [|apply Q'].
  2:{ intros y Iy. rewrite Eg, clean_ext by (apply Hz, Iy). apply user_clean; [exact U|apply Hz, Iy]. }
  2:{ intros u I. destruct (Hu u I) as (D & E). exact (value_clean env _ _ _ E). }
  2:{ intros w I. specialize (Hw w I). lia. }
  intros x0 r St. cbv beta in St. eapply eq_ind; [exact St|].
  clear St Q' Hu.
  assert (Et : forall y, In y inputs -> tan O wrt (at_rest O env G2) (delta x0) G2 y = tan O wrt x (delta x0) G y).
  { intros y Iy. rewrite Eg at 2. rewrite (stable_ext O); [|apply tan_stable|apply Hz, Iy].
    apply tan_values; [exact W|]. intros j Hj. rewrite Eg. unfold x, at_rest. apply (stable_ext O); [apply moved_stable|exact Hj]. }
  revert Et Fu. generalize (along inputs jv) as V. intros V. generalize inputs at 1 3 4 6 7 as l. intros l Et Fu.
  induction Fu as [|z u l us (D & Ev & Sd) _ IH]; [reflexivity|].
  cbn [zip map]. rewrite map2_cons, !rsum_cons. cbn [fst snd]. rewrite IH by (intros; apply Et; now right). f_equal.
  rewrite Et by (now left).
  assert (Ex : at_rest O env G2 u = D).
  { pose proof (clean_value O env G2 u (value_clean env _ _ _ Ev)) as Cv. congruence. }
  rewrite Ex, (proj1 (second_is O env inputs G loss z V D Sm W) Sd). apply Rmult_comm.
Qed.
End Graphs.
