(** C128: the shapes of scale and shift registrations. *)
From Coq Require Import String List Arith ZArith Bool Reals Lia.
From Verif.Base Require Import Py.
From Verif.Registry Require Import Model ScaleSpec ScaleProofs.
Import ListNotations.
Open Scope list_scope.

(** Full statement: a scale and shift registration that succeeds was given a shift that
    broadcasts to the outputs and a scale that broadcasts to the inputs.  False of the scale:
    scale parameters larger than the inputs are accepted (a scale of 5 entries for inputs with
    one feature), where a shift of that shape is refused. *)
Theorem C128_scale_broadcasts_refuted :
  exists shape i o c',
    run_layer shape RFalse (ScaleAndShift (PVar 1) i o None RFalse) initial = (c', Ok tt) /\
    ~ broadcasts (shape 1) (a_shape i).
Proof.
  exists (fun _ => [5]), (mkArg 0 [8; 1]), (mkArg 1 [8; 5]). eexists. split; [reflexivity|].
  intros (lead & rest & E & H).
  destruct lead as [|x [|y lead]]; cbn in *.
  - subst rest. destruct H as [H _]. discriminate H.
  - injection E as <- <-. inversion H as [|? ? ? ? R]; subst. destruct R as [R|R]; discriminate R.
  - destruct lead; destruct rest; try discriminate E. inversion H.
Qed.
Print Assumptions C128_scale_broadcasts_refuted.

(** What holds: the shift broadcasts to the outputs, and the scale lines up with the inputs
    dimension by dimension: equal to the input's, one, or larger. *)
Theorem C128_accepted_shapes_partial :
  forall shape scope p i o a r c c',
    run_layer shape scope (ScaleAndShift p i o a r) c = (c', Ok tt) ->
    match p with
    | PVar scale => lines_up (fun p d => p = d \/ p = 1 \/ d < p) (shape scale) (a_shape i)
    | PTup (scale :: shift :: _) =>
        broadcasts (shape shift) (a_shape o) /\
        lines_up (fun p d => p = d \/ p = 1 \/ d < p) (shape scale) (a_shape i)
    | PTup _ => False
    end.
Proof.
  intros shape scope p i o a r c c' H. cbn [run_layer] in H. unfold register_scale_and_shift in H.
  unfold mbind at 1 in H. destruct p as [sc|[|sc [|sh l]]]; try discriminate H.
  - unfold ret at 1 in H. unfold mbind at 1, lift at 1 in H.
    destruct (check_broadcast false (shape sc) (a_shape i)) as [[]|e] eqn:E; [|discriminate H].
    exact (loose_sound _ _ E).
  - unfold mbind at 1, lift at 1 in H.
    destruct (check_broadcast true (shape sh) (a_shape o)) as [[]|e] eqn:E1; [|discriminate H].
    unfold ret at 1 in H. unfold mbind at 1, lift at 1 in H.
    destruct (check_broadcast false (shape sc) (a_shape i)) as [[]|e] eqn:E2; [|discriminate H].
    split; [exact (strict_sound _ _ E1)|exact (loose_sound _ _ E2)].
Qed.
Print Assumptions C128_accepted_shapes_partial.

(** A call refused for its shapes raises ValueError and registers nothing. *)
Theorem C128_refused_shapes_partial :
  forall shape scope scale i o a r c,
    let bad_scale := ~ lines_up (fun p d => p = d \/ p = 1 \/ d < p) (shape scale) (a_shape i) in
    (forall shift rest, ~ broadcasts (shape shift) (a_shape o) \/ bad_scale ->
       run_layer shape scope (ScaleAndShift (PTup (scale :: shift :: rest)) i o a r) c = (c, Raise ValueError)) /\
    (bad_scale ->
       run_layer shape scope (ScaleAndShift (PVar scale) i o a r) c = (c, Raise ValueError)).
Proof.
  intros shape scope scale i o a r c bad. cbn [run_layer]. unfold register_scale_and_shift.
  split; [intros shift rest H|intros H]; unfold mbind at 1.
  - unfold mbind at 4, lift at 1.
    destruct (check_broadcast true (shape shift) (a_shape o)) as [[]|e] eqn:E1.
    + destruct H as [H|H]; [exfalso; exact (H (strict_sound _ _ E1))|].
      unfold ret at 1, mbind at 1, lift at 1.
      destruct (check_broadcast false (shape scale) (a_shape i)) as [[]|e] eqn:E2;
        [exfalso; exact (H (loose_sound _ _ E2))|].
      rewrite (check_raises _ _ _ _ E2). reflexivity.
    + rewrite (check_raises _ _ _ _ E1). reflexivity.
  - unfold ret at 1, mbind at 1, lift at 1.
    destruct (check_broadcast false (shape scale) (a_shape i)) as [[]|e] eqn:E2;
      [exfalso; exact (H (loose_sound _ _ E2))|].
    rewrite (check_raises _ _ _ _ E2). reflexivity.
Qed.
Print Assumptions C128_refused_shapes_partial.

(** No parameters that broadcast to non-empty data are refused: in a fresh collection the
    registration succeeds and creates the block. *)
Theorem C128_broadcasting_accepted :
  forall shape scale shift i o a,
    a = "full"%string \/ a = "diagonal"%string ->
    Forall (fun d => 0 < d) (a_shape i) -> Forall (fun d => 0 < d) (a_shape o) ->
    broadcasts (shape scale) (a_shape i) -> broadcasts (shape shift) (a_shape o) ->
    (exists c' k, run_layer shape RFalse (ScaleAndShift (PVar scale) i o (Some a) RFalse) initial = (c', Ok tt) /\
       c_blocks c' = [(PVar scale, mkBlock k a [mkTower [a_id i] [a_id o]])]) /\
    (exists c' k, run_layer shape RFalse (ScaleAndShift (PTup [scale; shift]) i o (Some a) RFalse) initial = (c', Ok tt) /\
       c_blocks c' = [(PTup [scale; shift], mkBlock k a [mkTower [a_id i] [a_id o]])]).
Proof.
  intros shape scale shift i o a Ha Pi Po Bi Bo.
  assert (E1 := complete false _ _ Pi Bi). assert (E2 := complete true _ _ Po Bo).
  cbn [run_layer]. unfold register_scale_and_shift.
  split; unfold mbind, lift, ret; rewrite ?E2, E1; destruct Ha as [-> | ->]; cbn;
    rewrite ?Nat.eqb_refl; cbn; do 2 eexists; (split; [reflexivity|]); cbn; reflexivity.
Qed.
Print Assumptions C128_broadcasting_accepted.

(** Layer normalisation of 4x5 feature maps in batches of 8: a scale per channel and a shift
    with a batch dimension of size 1. *)
Example C128_example :
  broadcasts [5] [8; 4; 5] /\ broadcasts [1; 4; 1] [8; 4; 5] /\ ~ broadcasts [4] [8; 4; 5] /\
  Forall (fun d => 0 < d) [8; 4; 5].
Proof.
  split; [|split; [|split]].
  - exists [8; 4], [5]. split; [reflexivity|]. repeat constructor.
  - exists [], [8; 4; 5]. split; [reflexivity|]. split; [reflexivity|]. constructor; [now left|]. constructor; [now right|constructor].
  - intros (lead & rest & E & H). destruct lead as [|x [|y [|z lead]]]; cbn in *.
    + subst rest. destruct H as [H _]. discriminate H.
    + injection E as <- <-. inversion H; subst. inversion H5.
    + injection E as <- <- <-. inversion H; subst. destruct H3 as [K|K]; discriminate K.
    + destruct lead; destruct rest; try discriminate E. inversion H.
  - repeat constructor.
Qed.
