(** Properties C19-C28 of LayerCollection. *)
From Coq Require Import String List Arith ZArith Bool Reals Lia Lra.
From Verif.Base Require Import Py.
From Verif.Registry Require Import Model Spec BlockProofs HistoryProofs UsesProofs LossProofs.
Import ListNotations.
Open Scope list_scope.

(** Data for the examples: all variables are 3x4 matrices. *)
Definition ex_shape (v : nat) : list nat := [3; 4].
Definition ex_t (n : nat) : targ := mkArg n [7; 3].
Definition ex_fc (p : params) (n : nat) (r : reuse) : call :=
  Layer RFalse (FullyConnected p (ex_t n) (ex_t (S n)) None true r).
Definition ex_loss : call := Loss RFalse (Some "loss"%string) "x" 1 RFalse.

(* ------------------------------------------------------------------------ *)
(** ** C19 *)

Theorem C19_no_variable_in_two_blocks :
  forall shape h i j p q b d v,
    nth_error (c_blocks (after shape h initial)) i = Some (p, b) ->
    nth_error (c_blocks (after shape h initial)) j = Some (q, d) ->
    In v (vars_of p) -> In v (vars_of q) -> i = j.
Proof. exact one_block. Qed.
Print Assumptions C19_no_variable_in_two_blocks.

(** A call whose (first) parameter set overlaps a different registered one. *)
Theorem C19_overlap_rejected :
  forall shape h scope l t rest q b v,
    let c := after shape h initial in
    parts l = t :: rest -> In (q, b) (c_blocks c) -> q <> pt_params t ->
    In v (vars_of (pt_params t)) -> In v (vars_of q) ->
    exists e, run_layer shape scope l c = (c, Raise e).
Proof. exact conflict_refused. Qed.
Print Assumptions C19_overlap_rejected.

Theorem C19_duplicate_rejected :
  forall shape h scope l t rest b,
    let c := after shape h initial in
    parts l = t :: rest -> In (pt_params t, b) (c_blocks c) ->
    effective_reuse scope (reuse_of l) = RFalse ->
    exists e, run_layer shape scope l c = (c, Raise e).
Proof. exact duplicate_refused. Qed.
Print Assumptions C19_duplicate_rejected.

(** Two blocks get registered; a third call overlapping the first is refused, and so
    is a repetition. *)
Example C19_example :
  let h := [ex_fc (PTup [1; 2]) 10 RFalse; ex_fc (PVar 3) 20 RFalse;
            ex_fc (PVar 2) 30 RFalse; ex_fc (PVar 3) 40 RFalse] in
  map fst (c_blocks (after ex_shape h initial)) = [PTup [1; 2]; PVar 3].
Proof. reflexivity. Qed.

(* ------------------------------------------------------------------------ *)
(** ** C20 *)

(** A successful single-layer registration either creates the block with one tower
    (never when reuse is True) or appends one tower to the block registered for
    exactly these parameters (only when reuse is True or AUTO_REUSE). *)
Theorem C20_success_creates_or_adds_one_tower :
  forall shape scope l c c' t,
    clean shape l -> parts l = [t] -> run_layer shape scope l c = (c', Ok tt) ->
    let r := effective_reuse scope (reuse_of l) in
    ((forall b, ~ In (pt_params t, b) (c_blocks c)) /\ r <> RTrue /\
     exists k a, c_blocks c' = c_blocks c ++ [(pt_params t, mkBlock k a [pt_tower t])]) \/
    ((r = RTrue \/ r = RAuto) /\
     exists b pre post, c_blocks c = pre ++ (pt_params t, b) :: post /\
       c_blocks c' = pre ++ (pt_params t,
         mkBlock (b_cls b) (b_approx b) (b_towers b ++ [pt_tower t])) :: post).
Proof. exact layer_success. Qed.
Print Assumptions C20_success_creates_or_adds_one_tower.

(** A separable convolution that succeeds registers two parts in turn, each by the same rule:
    the depthwise parameters with the layer's inputs and the depthwise outputs, then the
    pointwise parameters with the depthwise outputs and the layer's outputs. *)
Theorem C20_separable_registers_both_parts :
  forall shape scope dp pp s rate i d o f a r c c',
    run_layer shape scope (Separable dp pp s rate i d o f a r) c = (c', Ok tt) ->
    let adds p t c c' :=
      ((forall b, ~ In (p, b) (c_blocks c)) /\ effective_reuse scope r <> RTrue /\
       exists k a, c_blocks c' = c_blocks c ++ [(p, mkBlock k a [t])]) \/
      ((effective_reuse scope r = RTrue \/ effective_reuse scope r = RAuto) /\
       exists b pre post, c_blocks c = pre ++ (p, b) :: post /\
         c_blocks c' = pre ++ (p, mkBlock (b_cls b) (b_approx b) (b_towers b ++ [t])) :: post) in
    exists c1,
      adds dp (mkTower [a_id i] [a_id d]) c c1 /\ adds pp (mkTower [a_id d] [a_id o]) c1 c'.
Proof.
  intros shape scope dp pp s rate i d o f a r c c' H adds.
  cbn [run_layer] in H. unfold register_separable_conv2d, mbind at 1 in H.
  destruct (register_depthwise_conv2d shape scope dp s rate i d f (Some "diagonal"%string) r c)
    as [c1 [[]|e]] eqn:E1; [|discriminate H].
  exists c1; split.
  - exact (C20_success_creates_or_adds_one_tower shape scope
             (Depthwise dp s rate i d f (Some "diagonal"%string) r) c c1 _ I eq_refl E1).
  - exact (C20_success_creates_or_adds_one_tower shape scope
             (Conv2d pp [1;1;1;1]%Z None d o f a r) c1 c' _ I eq_refl H).
Qed.
Print Assumptions C20_separable_registers_both_parts.

Example C20_separable_example :
  let r := run_layer (fun _ => [3; 3; 4; 5]) RFalse
    (Separable (PVar 1) (PVar 2) [1; 1; 1; 1]%Z None (ex_t 0) (ex_t 1) (ex_t 2) true None RFalse) initial in
  snd r = Ok tt /\
  map (fun pb => (fst pb, b_towers (snd pb))) (c_blocks (fst r)) =
    [(PVar 1, [mkTower [0] [1]]); (PVar 2, [mkTower [1] [2]])].
Proof. split; reflexivity. Qed.

Theorem C20_reuse_of_unregistered_raises :
  forall shape scope l t rest c,
    parts l = t :: rest -> (forall b, ~ In (pt_params t, b) (c_blocks c)) ->
    effective_reuse scope (reuse_of l) = RTrue ->
    exists e, run_layer shape scope l c = (c, Raise e).
Proof. exact reuse_unknown_refused. Qed.
Print Assumptions C20_reuse_of_unregistered_raises.

Theorem C20_reuse_with_other_type_raises :
  forall shape h scope l t b k a,
    let c := after shape h initial in
    parts l = [t] -> In (pt_params t, b) (c_blocks c) -> asks c l k a -> b_cls b <> k ->
    exists e, run_layer shape scope l c = (c, Raise e).
Proof. exact wrong_type. Qed.
Print Assumptions C20_reuse_with_other_type_raises.

(** AUTO_REUSE behaves like reuse=False before the first registration and like
    reuse=True afterwards. *)
Theorem C20_auto_reuse :
  forall shape scope l c t,
    parts l = [t] ->
    run_layer shape scope (with_reuse RAuto l) c
    = run_layer shape scope
        (with_reuse (match find_block (c_blocks c) (pt_params t) with
                     | Some _ => RTrue | None => RFalse end) l) c.
Proof. exact auto_reuse. Qed.
Print Assumptions C20_auto_reuse.

(** Over any history of clean calls the towers of a block are the data of the
    successful registrations of its parameters, in order. *)
Theorem C20_towers_are_the_successful_registrations :
  forall shape h p b,
    Forall (clean_call shape) h ->
    In (p, b) (c_blocks (after shape h initial)) ->
    b_towers b = towers_for (succeeded shape h initial) p.
Proof.
  intros shape h p b H I. pose proof (towers_history shape h initial p H) as T.
  unfold towers_at in T. rewrite (find_block_key _ _ _ (DK_after shape h) I) in T. exact T.
Qed.
Print Assumptions C20_towers_are_the_successful_registrations.

Example C20_example :
  let h := [ex_fc (PVar 3) 10 RAuto; ex_fc (PVar 3) 20 RFalse; ex_fc (PVar 3) 30 RTrue;
            Layer RFalse (FullyConnected (PVar 3) (ex_t 0) (ex_t 1) (Some "diagonal"%string) true RTrue);
            ex_fc (PVar 3) 40 RAuto] in
  Forall (clean_call ex_shape) h /\
  map (fun kb => b_towers (snd kb)) (c_blocks (after ex_shape h initial))
  = [[mkTower [10] [11]; mkTower [30] [31]; mkTower [40] [41]]].
Proof. split; [repeat constructor | reflexivity]. Qed.
Example C20_example_asks :
  asks initial (FullyConnected (PVar 3) (ex_t 0) (ex_t 1) (Some "diagonal"%string) true RTrue)
       FullyConnectedDiagonalFB "diagonal".
Proof.
  eapply ask_table; [reflexivity | discriminate | constructor |]. cbn. auto 10.
Qed.

(* ------------------------------------------------------------------------ *)
(** ** C21 *)

Theorem C21_finalized_calls_raise :
  forall shape c, c_final c = true ->
    (forall scope l, exists e, run_call shape (Layer scope l) c = (c, Raise e)) /\
    (forall scope n f k r, exists e, run_call shape (Loss scope n f k r) c = (c, Raise e)) /\
    (exists e, run_call shape Finalize c = (c, Raise e)).
Proof.
  intros shape c F. split; [|split].
  - intros. apply finalized_layer. assumption.
  - intros. exists ValueError. apply finalized_loss. assumption.
  - exists ValueError. apply finalize_iff. auto.
Qed.
Print Assumptions C21_finalized_calls_raise.

Theorem C21_finalized_is_frozen :
  forall shape h c, c_final c = true ->
    c_blocks (after shape h c) = c_blocks c /\ c_losses (after shape h c) = c_losses c /\
    c_coeffs (after shape h c) = c_coeffs c /\ c_final (after shape h c) = true.
Proof. exact finalized_after. Qed.
Print Assumptions C21_finalized_is_frozen.

Theorem C21_finalize_needs_a_loss_and_runs_once :
  forall c,
    (snd (finalize c) = Ok tt <-> c_final c = false /\ losses c <> []) /\
    (c_final c = true \/ losses c = [] -> finalize c = (c, Raise ValueError)) /\
    (snd (finalize c) = Ok tt -> c_final (fst (finalize c)) = true).
Proof. exact finalize_iff. Qed.
Print Assumptions C21_finalize_needs_a_loss_and_runs_once.

Example C21_example :
  c_final (after ex_shape [ex_fc (PVar 3) 10 RFalse; ex_loss; Finalize] initial) = true /\
  snd (finalize initial) = Raise ValueError.
Proof. split; reflexivity. Qed.

(* ------------------------------------------------------------------------ *)
(** ** C22 *)

Theorem C22_check_accepts_exactly :
  forall shape h total vs,
    let c := after shape h initial in
    Forall (clean_call shape) h -> no_check h -> Forall used h ->
    c_final c = true -> NoDup vs ->
    (snd (check_registration total vs c) = Ok tt <->
     (forall v, In v vs <-> exists p, owns c p v) /\
     (forall v, In v vs -> declared (succeeded shape h initial) v = Inf \/
                           declared (succeeded shape h initial) v = Fin (total v))).
Proof. exact check_exact. Qed.
Print Assumptions C22_check_accepts_exactly.

(** Two towers of one layer and a generic layer: accepted when the shared weights are
    used twice in the graph. *)
Example C22_example :
  let h := [ex_fc (PTup [1; 2]) 10 RAuto; ex_fc (PTup [1; 2]) 20 RAuto;
            Layer RFalse (Generic (PVar 5) 100 None RFalse); ex_loss; Finalize] in
  Forall (clean_call ex_shape) h /\ no_check h /\ Forall used h /\
  c_final (after ex_shape h initial) = true /\
  snd (check_registration (fun _ => 2) [5; 2; 1] (after ex_shape h initial)) = Ok tt /\
  snd (check_registration (fun _ => 3) [5; 2; 1] (after ex_shape h initial)) = Raise ValueError /\
  snd (check_registration (fun _ => 2) [5; 1] (after ex_shape h initial)) = Raise ValueError.
Proof. repeat split; repeat constructor. Qed.

(* ------------------------------------------------------------------------ *)
(** ** C23 *)

(** Full statement: for every reachable collection, an earlier check with any list
    does not change a later check's answer, and no list passes merely because it
    repeats variables.  Both halves are false of the code. *)
Definition ex_hist : list call :=
  [ex_fc (PVar 1) 10 RFalse; ex_loss; Finalize].
Definition ex_hist2 : list call :=
  [ex_fc (PVar 1) 10 RFalse; ex_fc (PVar 2) 20 RFalse; ex_loss; Finalize].
Theorem C23_check_repeatable_refuted :
  (exists shape h total vs1 vs2, NoDup vs1 /\ NoDup vs2 /\
     let c := after shape h initial in
     snd (check_registration total vs2 c) = Ok tt /\
     snd (check_registration total vs2 (fst (check_registration total vs1 c))) = Raise ValueError) /\
  (exists shape h total vs v p,
     let c := after shape h initial in
     snd (check_registration total vs c) = Ok tt /\ owns c p v /\ ~ In v vs).
Proof.
  split.
  - exists ex_shape, ex_hist, (fun _ => 1), [1; 2], [1]. split; [|split; [|split; reflexivity]].
    + repeat constructor; cbn; intuition congruence.
    + repeat constructor; cbn; intuition congruence.
  - exists ex_shape, ex_hist2, (fun _ => 1), [1; 1], 2, (PVar 2). split; [reflexivity|]. split.
    + eexists. split; cbn; eauto.
    + cbn. intuition congruence.
Qed.
Print Assumptions C23_check_repeatable_refuted.

(** What holds: a check that passes changes nothing, and repeating the same check
    repeats its answer.  Missing: independence from checks with other lists. *)
Theorem C23_check_repeatable_partial :
  forall total vs c,
    (forall c', check_registration total vs c = (c', Ok tt) -> c' = c) /\
    (forall c' r, check_registration total vs c = (c', r) ->
       snd (check_registration total vs c') = r).
Proof.
  intros total vs c. split.
  - apply check_pass_still.
  - intros c' [[]|e] E.
    + pose proof (check_pass_still _ _ _ _ E). subst. rewrite E. reflexivity.
    + destruct (check_fail_again _ _ _ _ _ E) as (c'' & ->). reflexivity.
Qed.
Print Assumptions C23_check_repeatable_partial.

(* ------------------------------------------------------------------------ *)
(** ** C24 *)

Theorem C24_approximation_selection :
  forall shape h scope l k p approx a,
    let c := after shape h initial in
    kind_of l = Some (k, p, approx) -> vars_of p <> [] ->
    selects c p (default_of k (c_def c)) approx a ->
    ((forall x, ~ In (a, x) (table_of k)) ->
       exists e, run_layer shape scope l c = (c, Raise e)) /\
    (forall b c', In (p, b) (c_blocks c') ->
       run_layer shape scope l c = (c', Ok tt) -> clean shape l ->
       (forall b0, ~ In (p, b0) (c_blocks c)) ->
       b_approx b = a /\ In (a, b_cls b) (table_of k)).
Proof. exact selection. Qed.
Print Assumptions C24_approximation_selection.

(** The selection rule always determines exactly one name. *)
Theorem C24_selection_exists_unique :
  forall shape h k p approx,
    let c := after shape h initial in
    vars_of p <> [] ->
    exists a, selects c p (default_of k (c_def c)) approx a /\
      forall b, selects c p (default_of k (c_def c)) approx b -> b = a.
Proof.
  intros shape h k p approx c Ne. exists (effective c k p approx).
  pose proof (effective_selects c k p approx (LD_after shape h) Ne) as S. split; [exact S|].
  intros b Sb. eapply selects_unique; eauto. apply LD_after.
Qed.
Print Assumptions C24_selection_exists_unique.

(** Each registration function knows exactly the documented approximations. *)
Theorem C24_known_approximations :
  forall kd a k, In (a, k) (table_of kd) <-> documented kd a k.
Proof.
  intros kd a k. destruct kd; cbn; split; intros H;
    repeat match goal with
           | H : _ \/ _ |- _ => destruct H as [H|H]
           | H : (_, _) = (_, _) |- _ => injection H as <- <-
           | H : _ /\ _ |- _ => destruct H
           | H : False |- _ => destruct H
           end; subst; intuition.
Qed.
Print Assumptions C24_known_approximations.

Theorem C24_set_default_checks_table :
  forall k a c,
    ((exists x, In (a, x) (table_of k)) ->
       exists c', set_default k a c = (c', Ok tt) /\
         forall k', default_of k' (c_def c') =
           (if match k, k' with
               | KGeneric, KGeneric | KFc, KFc | KConv2d, KConv2d | KFcMulti, KFcMulti
               | KConv2dMulti, KConv2dMulti | KScaleShift, KScaleShift => true
               | _, _ => false end then a else default_of k' (c_def c))) /\
    ((forall x, ~ In (a, x) (table_of k)) -> set_default k a c = (c, Raise ValueError)).
Proof. exact set_default_spec. Qed.
Print Assumptions C24_set_default_checks_table.

(** Linking succeeds exactly when the set meets no linked group and meets no
    registered block other than over the same set. *)
Theorem C24_linking_accepts_exactly :
  forall p a c,
    let ok :=
      (forall q b v, In (q, b) (c_blocks c) -> In v (vars_of p) -> In v (vars_of q) ->
         same_set (vars_of p) (vars_of q)) /\
      (forall s x v, In (s, x) (c_linked c) -> In v (vars_of p) -> ~ In v s) in
    (ok /\ define_linked_parameters p a c
           = (set_linked ((vars_of p, a) :: c_linked c) c, Ok tt)) \/
    (~ ok /\ define_linked_parameters p a c = (c, Raise ValueError)).
Proof. exact link_spec. Qed.
Print Assumptions C24_linking_accepts_exactly.

Theorem C24_linked_groups_disjoint :
  forall shape h i j s a s' a' v,
    nth_error (c_linked (after shape h initial)) i = Some (s, a) ->
    nth_error (c_linked (after shape h initial)) j = Some (s', a') ->
    In v s -> In v s' -> i = j.
Proof. exact LD_after. Qed.
Print Assumptions C24_linked_groups_disjoint.

Example C24_example :
  let h := [Link (PTup [1; 2]) (Some "diagonal"%string); Link (PVar 2) None;
            ex_fc (PTup [2; 1]) 10 RFalse; ex_fc (PVar 3) 20 RFalse;
            Layer RFalse (FullyConnected (PVar 4) (ex_t 0) (ex_t 1) (Some "kron_indep"%string) true RFalse)] in
  let c := after ex_shape h initial in
  length (c_linked c) = 1 /\
  map (fun kb => (fst kb, b_approx (snd kb))) (c_blocks c)
  = [(PTup [2; 1], "diagonal"%string); (PVar 3, "kron"%string)].
Proof. split; reflexivity. Qed.

(* ------------------------------------------------------------------------ *)
(** ** C25 *)

Theorem C25_one_coefficient_per_name :
  forall shape h,
    let c := after shape h initial in
    NoDup (map fst (c_losses c)) /\ NoDup (losses c) /\
    exists coeff : string -> R, forall n ts x,
      In (n, ts) (c_losses c) -> In x ts -> coeff_of (c_coeffs c) x = Some (coeff n).
Proof.
  intros shape h c. pose proof (LI_after shape h) as L. split; [|split].
  - apply (li_names _ L).
  - apply (li_ids _ L).
  - destruct (coeff_function shape h) as (kf & K). exists kf. exact K.
Qed.
Print Assumptions C25_one_coefficient_per_name.

(** When a loss registration succeeds, and what it does. *)
Theorem C25_registration_accepts_exactly :
  forall shape h scope name fresh k r,
    let c := after shape h initial in
    let n := match name with Some EmptyString | None => fresh | Some n => n end in
    let allowed :=
      c_final c = false /\
      (if match effective_reuse scope r with RFalse => false | _ => true end
       then exists ts, In (n, ts) (c_losses c) /\
              forall x, In x ts -> coeff_of (c_coeffs c) x = Some k
       else forall ts, ~ In (n, ts) (c_losses c)) in
    (allowed /\ exists c', register_loss scope name fresh k r c = (c', Ok tt) /\
       coeff_of (c_coeffs c') (c_next c) = Some k /\
       forall m, towers_of_loss c' m
                 = towers_of_loss c m ++ (if String.eqb n m then [c_next c] else [])) \/
    (~ allowed /\ exists e, register_loss scope name fresh k r c = (c, Raise e)).
Proof.
  intros shape h scope name fresh k r c n allowed.
  destruct (loss_spec scope name fresh k r c (LI_after shape h)) as [[A E]|X]; [|right; exact X].
  left. split; [exact A|]. eexists. split; [exact E|]. split.
  - cbn. rewrite Nat.eqb_refl. reflexivity.
  - intros m. unfold towers_of_loss, loss_added. cbn [c_losses set_losses].
    rewrite append_loss_find. change (loss_name name fresh) with n.
    destruct (String.eqb n m); [reflexivity|]. destruct find_loss; rewrite app_nil_r; reflexivity.
Qed.
Print Assumptions C25_registration_accepts_exactly.

Theorem C25_towers_count_registrations :
  forall shape n h,
    length (towers_of_loss (after shape h initial) n) = registrations_of shape n h initial.
Proof. intros shape n h. apply (loss_towers_history shape n h initial). apply (LI_after shape []). Qed.
Print Assumptions C25_towers_count_registrations.

Theorem C25_total_loss :
  forall shape h value m,
    let c := after shape h initial in
    (losses c = [] -> total_loss c value m = None) /\
    (losses c <> [] ->
     forall coeff : string -> R,
       (forall n ts x, In (n, ts) (c_losses c) -> In x ts ->
          coeff_of (c_coeffs c) x = Some (coeff n)) ->
       total_loss c value m
       = Some (rsum (map (fun nt => (weight m (coeff (fst nt)) * rsum (map value (snd nt)))%R)
                         (c_losses c)))).
Proof. exact total_loss_spec. Qed.
Print Assumptions C25_total_loss.

Example C25_example :
  let h := [Loss RFalse (Some "a"%string) "x" 2 RFalse; Loss RFalse None "b" 3 RFalse;
            Loss RFalse (Some "a"%string) "x" 2 RTrue; Loss RFalse (Some "a"%string) "x" 2 RFalse;
            Loss RTrue (Some "c"%string) "x" 2 RScope] in
  map snd (c_losses (after ex_shape h initial)) = [[0; 2]; [1]].
Proof. cbn. destruct (Req_EM_T 2 2); [reflexivity | exfalso; auto]. Qed.

(* ------------------------------------------------------------------------ *)
(** ** C26 *)

Theorem C26_factors_shared_exactly :
  forall ks s rs,
    requests fs_init ks = (s, rs) ->
    length rs = length ks /\ NoDup (get_factors s) /\
    forall i j k k', nth_error ks i = Some k -> nth_error ks j = Some k' ->
      match snd k, snd k' with
      | Some a, Some a' =>
          exists f f', nth_error rs i = Some (Ok f) /\ nth_error rs j = Some (Ok f') /\
            In f (get_factors s) /\ (f = f' <-> fst k = fst k' /\ a = a')
      | None, _ => nth_error rs i = Some (Raise TypeError)
      | _, None => nth_error rs j = Some (Raise TypeError)
      end.
Proof. exact factor_sharing. Qed.
Print Assumptions C26_factors_shared_exactly.

Example C26_example :
  snd (requests fs_init [(1, Some 5); (2, Some 5); (1, Some 5); (1, None); (1, Some 6)])
  = [Ok 0; Ok 1; Ok 0; Raise TypeError; Ok 2].
Proof. reflexivity. Qed.

(* ------------------------------------------------------------------------ *)
(** ** C27 *)

(** Full statement: whatever its body does, as_default leaves the default as it was.
    False when the body raises: the collection stays installed, and the next as_default
    fails. *)
Theorem C27_default_scoped_refuted :
  exists l body e,
    exec (AsDefault l body) None = (Some l, [], Raise e) /\
    (forall l' body', snd (exec (Seq (Try (AsDefault l body)) (AsDefault l' body')) None)
                      = Raise ValueError).
Proof. exists 7, (RaiseIt KeyError), KeyError. split; reflexivity. Qed.
Print Assumptions C27_default_scoped_refuted.

(** What holds: a live default is never overwritten; inside the body the collection is
    the default; and when the block ends without an exception the default is unset, as
    it was before.  Missing: bodies that raise. *)
Theorem C27_default_scoped_partial :
  (forall x y, set_default_coll (Some y) (Some x) = (Some x, Raise ValueError)) /\
  (forall l body x, exec (AsDefault l body) (Some x) = (Some x, [], Raise ValueError)) /\
  (forall l body g' out r, exec (AsDefault l (Seq GetDefault body)) None = (g', out, r) ->
     exists out', out = l :: out') /\
  (forall l body g g' out, exec (AsDefault l body) g = (g', out, Ok tt) -> g = None /\ g' = None).
Proof.
  split; [exact set_default_live|]. split; [exact as_default_live|].
  split; [exact as_default_installs | exact as_default_normal].
Qed.
Print Assumptions C27_default_scoped_partial.

Example C27_example :
  exec (Seq (AsDefault 4 (Seq GetDefault (Try (AsDefault 5 Skip)))) (AsDefault 6 GetDefault)) None
  = (None, [4; 6], Ok tt).
Proof. reflexivity. Qed.

(* ------------------------------------------------------------------------ *)
(** ** C28 *)

(** Full statement: a registration call that raises changes nothing.  Three families
    of counterexamples: a separable convolution whose pointwise half is refused keeps
    its depthwise half; index inputs with a weight/bias pair leave a block without
    towers; a multi-use layer with unequal input and output lists leaves a tower. *)
Definition ex_shape4 (v : nat) : list nat := [3; 3; 4; 5].
Theorem C28_failed_call_unchanged_refuted :
  (exists e, let c := initial in
     let r := run_layer ex_shape4 RFalse
       (Separable (PVar 1) (PVar 2) [1; 1; 1; 1]%Z None (ex_t 0) (ex_t 1) (ex_t 2) true
          (Some "nonsense"%string) RFalse) c in
     snd r = Raise e /\ map fst (c_blocks (fst r)) = [PVar 1]) /\
  (exists e, let r := run_layer ex_shape RFalse
       (FullyConnected (PTup [1; 2]) (ex_t 0) (ex_t 1) None false RFalse) initial in
     snd r = Raise e /\ map fst (c_blocks (fst r)) = [PTup [1; 2]]) /\
  (exists e, let r := run_layer ex_shape RFalse
       (FullyConnectedMulti (PVar 1) (AMany [ex_t 0; ex_t 1]) (AMany [ex_t 2]) None true RFalse) initial in
     snd r = Raise e /\ map fst (c_blocks (fst r)) = [PVar 1]).
Proof.
  split; [|split]; eexists; split; reflexivity.
Qed.
Print Assumptions C28_failed_call_unchanged_refuted.

(** What holds: every other registration, link, default or finalise call is
    all-or-nothing. *)
Theorem C28_failed_call_unchanged_partial :
  forall shape k c c' e,
    clean_call shape k -> (forall t vs, k <> Check t vs) ->
    run_call shape k c = (c', Raise e) -> c' = c.
Proof. exact failed_call_unchanged. Qed.
Print Assumptions C28_failed_call_unchanged_partial.

Example C28_example :
  let k := ex_fc (PVar 3) 10 RTrue in
  clean_call ex_shape k /\ run_call ex_shape k initial = (initial, Raise ValueError).
Proof. split; [left; reflexivity | reflexivity]. Qed.
