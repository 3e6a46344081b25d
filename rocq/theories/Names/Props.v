(** Properties of the names and variables of the Fisher factors. *)
From Coq Require Import String Ascii List Arith Bool Lia QArith Reals Permutation.
From Verif.Base Require Import Py.
From Verif.Names Require Import Model Spec StringProofs ScopeProofs VarProofs StatProofs InvProofs
  RelabelProofs LayerProofs ShapeProofs.
Import ListNotations.
Open Scope string_scope.
Open Scope nat_scope.
Open Scope list_scope.

(** A graph for the examples: inputs [8 x 3], gradients [8 x 2]. *)
Definition ex_names (t : nat) : string :=
  nth t ["x:0"; "h/out:0"; "h_out:0"; "grad/y:0"; "grad/z:0"; "image:0"; "grad/c:0"; "damping/read:0"] "t:0".
Definition ex_world : world :=
  mkWorld ex_names
    (fun t => if Nat.ltb t 3 then [8; 3] else if Nat.eqb t 5 then [8; 9; 9; 2]
              else if Nat.eqb t 6 then [8; 9; 9; 4] else [8; 2])
    (fun _ => None) (fun s => s) (fun q => if Qeq_bool q (- 1) then "-1.0" else "0.5").
Definition ex_conv (si sp : option bool) : conv :=
  mkConv [3; 3; 2; 4] (Some [1; 1; 1; 1]) "SAME" None None None false si sp None.

(* ------------------------------------------------------------------------ *)
(** * C89 *)

(** The property as stated fails: the names of two tensors may become the same word, and then
    two layers silently keep their statistics in one variable, which holds neither. *)
Theorem C89_own_statistics_refuted :
  exists w la lb fa ga fb gb st vw,
    layer_factors "separate" la = Ok [fa; ga] /\ layer_factors "separate" lb = Ok [fb; gb] /\
    (forall t u, In t (concat (data_of la ++ data_of lb)) -> In u (concat (data_of la ++ data_of lb)) ->
       tname w t = tname w u -> t = u) /\
    fa <> fb /\
    make_cov_vars imported w "kfac" [fa; ga; fb; gb] [] = Ok st /\
    stat_vars w "kfac" fa = Ok vw /\ stat_vars w "kfac" fb = Ok vw /\
    forall x y d m, m (fst vw) = 0%R -> m (snd vw) = 0%R ->
      value imported vw (add_to_average vw y d 1 (add_to_average vw x d 1 m)) = ((d * x + y) / (d + 1))%R.
Proof.
  exists ex_world, (LFC [1] [[3]] true false false), (LFC [2] [[4]] true false false).
  do 6 eexists. split; [reflexivity|]. split; [reflexivity|]. split.
  { cbn. intros t u [<-|[<-|[<-|[<-|[]]]]] [<-|[<-|[<-|[<-|[]]]]]; cbn; intros E; try reflexivity; discriminate E. }
  split; [discriminate|]. split; [vm_compute; reflexivity|]. split; [vm_compute; reflexivity|].
  split; [vm_compute; reflexivity|]. intros. apply shared_value; auto. discriminate.
Qed.
Print Assumptions C89_own_statistics_refuted.

(** Nor do the names show everything that tells factors apart.  Two layers with the same input
    and a diagonal approximation for it, one with a bias and one without, cannot be created
    together. *)
Theorem C89_bias_refuted :
  exists w la lb fa ga fb gb,
    layer_factors "separate" la = Ok [fa; ga] /\ layer_factors "separate" lb = Ok [fb; gb] /\
    (exists st, make_cov_vars imported w "kfac" [fa; ga] [] = Ok st) /\
    (exists st, make_cov_vars imported w "kfac" [fb; gb] [] = Ok st) /\
    make_cov_vars imported w "kfac" [fa; ga; fb; gb] [] = Raise ValueError.
Proof.
  exists ex_world, (LFC [0] [[3]] true true false), (LFC [0] [[4]] false true false).
  do 4 eexists. split; [reflexivity|]. split; [reflexivity|].
  split; [eexists; vm_compute; reflexivity|]. split; [eexists; vm_compute; reflexivity|].
  vm_compute; reflexivity.
Qed.
Print Assumptions C89_bias_refuted.

(** Two convolution layers with the same input and different sub-sampling have different
    factors with one variable. *)
Theorem C89_sub_sampling_refuted :
  exists w la lb fa ga fb gb st vw,
    layer_factors "separate" la = Ok [fa; ga] /\ layer_factors "separate" lb = Ok [fb; gb] /\
    fa <> fb /\ make_cov_vars imported w "kfac" [fa; ga; fb; gb] [] = Ok st /\
    stat_vars w "kfac" fa = Ok vw /\ stat_vars w "kfac" fb = Ok vw.
Proof.
  exists ex_world, (LConv [5] [[6]] (ex_conv (Some true) None) false),
    (LConv [5] [[4]] (ex_conv (Some false) None) false).
  do 6 eexists. split; [reflexivity|]. split; [reflexivity|]. split; [discriminate|].
  split; [vm_compute; reflexivity|]. split; vm_compute; reflexivity.
Qed.
Print Assumptions C89_sub_sampling_refuted.

(** What holds: if the words of the tensors can be told apart, then factors of which the
    printed parts differ get different variables, of the right shapes, whatever other variables
    there are outside of the scope, and what one adds to its average is not seen by another. *)
Theorem C89_own_statistics_partial : forall k w scope ts fs st,
  tell_apart w ts ->
  (forall f, In f fs -> proper f /\ incl (shown_tensors f) ts /\ exists s, cov_shape w f = Ok s) ->
  NoDup (map shown_of fs) -> unused scope st ->
  exists st', make_cov_vars k w scope fs st = Ok st' /\
    (forall v, In v st -> In v st') /\
    (forall f, In f fs -> exists vw s, stat_vars w scope f = Ok vw /\ cov_shape w f = Ok s /\
       has_average vw s st') /\
    (forall f g vf vg, In f fs -> In g fs -> f <> g ->
       stat_vars w scope f = Ok vf -> stat_vars w scope g = Ok vg ->
       forall x decay weight m,
         value k vg (add_to_average vf x decay weight m) = value k vg m).
Proof.
  intros k w scope ts fs st T F D U. apply (own_statistics k w scope ts T fs st); auto.
  apply Forall_forall. exact F.
Qed.
Print Assumptions C89_own_statistics_partial.

Example C89_example_factors : list factor :=
  [FCKronecker [[OTensor 0]] true; FCKronecker [[OTensor 0]] false;
   FCKronecker [[OTensor 3; OTensor 4]] false; DiagonalKronecker [[OTensor 0]] true;
   ConvInput [OTensor 5] (ex_conv None None); ConvInputSUA [OTensor 5] [3; 3; 2; 4] false;
   ConvOutput [[OTensor 6]]; FCMulti [[OTensor 0]] (Some 2) true true].
Example C89_example : tell_apart ex_world [0; 1; 3; 4; 5; 6] /\
  (forall f, In f C89_example_factors ->
     proper f /\ incl (shown_tensors f) [0; 1; 3; 4; 5; 6] /\ exists s, cov_shape ex_world f = Ok s) /\
  NoDup (map shown_of C89_example_factors) /\ unused "kfac" [mkVar "w" [3; 2] Ones].
Proof.
  split; [|split; [|split]].
  - split.
    + intros t I. repeat (destruct I as [<-|I]; [|]); try destruct I; cbn;
        (split; [eexists _, _; split; [reflexivity|unfold letter; cbn; lia]|
                 split; [repeat split; discriminate|discriminate]]).
    + intros t u I J (x & E).
      repeat (destruct I as [<-|I]; [|]); try destruct I;
      repeat (destruct J as [<-|J]; [|]); try destruct J; try reflexivity;
        cbn in E; discriminate E.
  - intros f I. repeat (destruct I as [<-|I]; [|]); try destruct I;
      (split; [|split; [intros t; cbn; tauto|eexists; vm_compute; reflexivity]]);
      repeat split; cbn; try discriminate; try tauto; try (intros g [<-|G]; [discriminate|]; try tauto);
      try (destruct G as [<-|[]]; discriminate); try (repeat split; discriminate).
  - repeat constructor; cbn; intuition discriminate.
  - intros v [<-|[]] (r & E). discriminate E.
Qed.

(* ------------------------------------------------------------------------ *)
(** * C90 *)

(** Creating everything for the factors either fails or gives every registered power, root and
    auxiliary quantity of every factor a new variable of its own: the names are exactly those
    listed, in order, no two are the same and none was there before. *)
Theorem C90_inverses_own : forall k w scope frs st st',
  make_vars k w scope frs st = Ok st' ->
  exists mid news, make_cov_vars k w scope (map fst frs) st = Ok mid /\
    st' = mid ++ concat news /\ NoDup (names (concat news)) /\
    (forall v, In v (concat news) -> ~ In (v_name v) (names mid)) /\
    Forall2 (fun fr new =>
      diagonal_factor (fst fr) = true /\ new = [] \/
      exists vs, var_scope w (fst fr) = Ok vs /\
        names new = inverse_names (k_zero_mean k) w scope (slash scope vs) (fst fr) (snd fr))
      frs news.
Proof. exact inverses_own. Qed.
Print Assumptions C90_inverses_own.

(** And it does not fail when the names in question are different and new. *)
Theorem C90_created : forall k w scope frs st mid nss,
  make_cov_vars k w scope (map fst frs) st = Ok mid ->
  (forall f r, In (f, r) frs -> computable w f r) ->
  Forall2 (fun fr ns => exists vs, var_scope w (fst fr) = Ok vs /\
     ns = inverse_names (k_zero_mean k) w scope (slash scope vs) (fst fr) (snd fr)) frs nss ->
  NoDup (concat nss) -> (forall n, In n (concat nss) -> ~ In n (names mid)) ->
  exists st', make_vars k w scope frs st = Ok st'.
Proof. exact creation_succeeds. Qed.
Print Assumptions C90_created.

Definition C90_id (s : string) : list idpart := [IStr s; ITensor 7; IStr "power"; IFloat (1 # 2)].
Example C90_example_registered : list (factor * regs) :=
  [(FCKronecker [[OTensor 0]] true,
    mkRegs [((- 1)%Q, C90_id "in"); ((- 1)%Q, C90_id "in2")] [C90_id "in"] [] [] []);
   (ConvInputSUA [OTensor 5] [3; 3; 2; 4] false, mkRegs [((- 1)%Q, C90_id "conv")] [] [] [] []);
   (FCMulti [[OTensor 0]] (Some 2) true true, mkRegs [] [] [] [C90_id "a"] [C90_id "b"]);
   (DiagonalKronecker [[OTensor 0]] true, mkRegs [((- 1)%Q, C90_id "in")] [] [] [] [])].
Example C90_example : exists st, make_vars imported ex_world "kfac" C90_example_registered [] = Ok st /\
  List.length st = 24.
Proof. eexists. split; vm_compute; reflexivity. Qed.
(** Both options for one damping ask for a variable called Lmat_damp. *)
Example C90_example_refused :
  make_vars imported ex_world "kfac"
    [(FCMulti [[OTensor 0]] (Some 2) true true, mkRegs [] [] [] [C90_id "a"] [C90_id "a"])] [] =
  Raise ValueError.
Proof. vm_compute. reflexivity. Qed.

(* ------------------------------------------------------------------------ *)
(** * C91 *)

(** The property as stated fails for scale-and-shift layers under the "concat" strategy: the
    variables of no such layer can be created. *)
Theorem C91_concat_scale_shift_refuted : forall k w scope full inputs grads bscale bshift has_shift st,
  (forall d, In d (inputs :: grads) -> d <> []) ->
  exists f, layer_factors "concat" (LScaleShift full inputs grads bscale bshift has_shift) = Ok [f] /\
    make_cov_vars k w scope [f] st = Raise AttributeError.
Proof. exact scale_shift_unnamed. Qed.
Print Assumptions C91_concat_scale_shift_refuted.

(** All other layers, with either strategy, give factors that have names. *)
Theorem C91_every_layer_named_partial : forall w strategy l,
  strategy = "concat" \/ strategy = "separate" ->
  (forall d, In d (data_of l) -> d <> []) ->
  (scale_and_shift l -> strategy = "separate") ->
  exists fs, layer_factors strategy l = Ok fs /\ fs <> [] /\
    forall f, In f fs -> exists vs, var_scope w f = Ok vs.
Proof. exact layer_named. Qed.
Print Assumptions C91_every_layer_named_partial.

Example C91_example : layer_factors "concat" (LFC [0; 1] [[3; 4]] true false false) =
  Ok [FCKronecker [[OParts [0; 1]]] true; FCKronecker [[OParts [3; 4]]] false] /\
  var_scope ex_world (FCKronecker [[OParts [0; 1]]] true) = Ok "ff_fckron_x_0__h_out_0_True".
Proof. split; reflexivity. Qed.

(* ------------------------------------------------------------------------ *)
(** * C92 *)

(** Another order of the factors, and of the dampings registered with each (they are kept in
    sets, so it differs between runs), gives the same variables, by name and shape. *)
Theorem C92_order : forall k w scope frs frs' st st1,
  NoDup (names st) -> reordered frs frs' ->
  make_vars k w scope frs st = Ok st1 ->
  exists st2, make_vars k w scope frs' st = Ok st2 /\ Permutation (map saved st1) (map saved st2).
Proof. exact order_of_creation. Qed.
Print Assumptions C92_order.

(** Another graph with tensors of the same names, shapes and depths gives the same variables in
    the same order, with the same initial values. *)
Theorem C92_identities : forall r w w' k scope frs st st',
  same_graph r w w' ->
  make_vars k w scope frs st = Ok st' ->
  make_vars k w' scope (map (fun fr => (re_factor r (fst fr), re_regs r (snd fr))) frs) st = Ok st'.
Proof. intros r w w' k scope frs st st' S. exact (relabelled r w w' S k scope frs st st'). Qed.
Print Assumptions C92_identities.

Example C92_example_order : reordered C90_example_registered
  [(FCMulti [[OTensor 0]] (Some 2) true true, mkRegs [] [] [] [C90_id "a"] [C90_id "b"]);
   (FCKronecker [[OTensor 0]] true,
    mkRegs [((- 1)%Q, C90_id "in2"); ((- 1)%Q, C90_id "in")] [C90_id "in"] [] [] []);
   (ConvInputSUA [OTensor 5] [3; 3; 2; 4] false, mkRegs [((- 1)%Q, C90_id "conv")] [] [] [] []);
   (DiagonalKronecker [[OTensor 0]] true, mkRegs [((- 1)%Q, C90_id "in")] [] [] [] [])].
Proof.
  eexists. split.
  - unfold C90_example_registered.
    match goal with |- Permutation [?a; ?b; ?c; ?d] _ =>
      apply (Permutation_app_tail [d] (Permutation_sym (Permutation_cons_append [a; b] c))) end.
  - cbn [app]. repeat apply Forall2_cons; try apply Forall2_nil; split; try reflexivity;
      repeat split; cbn; try apply Permutation_refl. apply perm_swap.
Qed.
Example C92_example_identities : same_graph S ex_world
  (mkWorld (fun t => ex_names (pred t))
     (fun t => tshape ex_world (pred t)) (fun _ => None) (fun s => s) (repr_float ex_world)).
Proof. repeat split. Qed.

(* ------------------------------------------------------------------------ *)
(** * C93 *)

(** The property as stated fails for the two settings about initial values: whatever the calls,
    every variable that is created for statistics or inverses starts at zero. *)
Theorem C93_initial_values_refuted : forall cs w scope frs st st',
  NoDup (names st) ->
  make_vars (after_calls cs) w scope frs st = Ok st' ->
  (forall fr, In fr frs -> r_opt1 (snd fr) = [] /\ r_opt2 (snd fr) = []) ->
  forall v, In v st' -> In v st \/ v_init v = Zeros.
Proof. exact all_zero. Qed.
Print Assumptions C93_initial_values_refuted.

Definition C93_calls : list call :=
  [mkCall (Some false) (Some false) (Some false) None None None None;
   mkCall None None None (Some true) (Some true) None (Some "concat");
   mkCall None (Some true) None (Some false) None None None].
Example C93_example_initial_values :
  k_init_cov_zero (after_calls C93_calls) = false /\
  make_vars (after_calls C93_calls) ex_world "kfac"
    [(FCKronecker [[OTensor 0]] true, mkRegs [] [C90_id "in"] [] [] [])] [] =
  Ok [mkVar "kfac/ff_fckron_x_0_True/cov/var" [4; 4] Zeros;
      mkVar "kfac/ff_fckron_x_0_True/cov/total_weight" [] Zeros;
      mkVar "kfac/ff_fckron_x_0_True/cholesky_dampin_damping_read_0_power_0.5" [4; 4] Zeros].
Proof. split; vm_compute; reflexivity. Qed.

(** Every other setting is the one given last, or the default: for debiasing, the value that is
    served is the average or the raw sum; a mean of the activations is kept unless it was last
    said to be zero; the data of a layer follow the strategy, and an unknown one is refused. *)
Theorem C93_settings_partial : forall cs, let k := after_calls cs in
  (forall vw m, value k vw m =
     if last_given (map c_zero_debias cs) true then (m (fst vw) / m (snd vw))%R else m (fst vw)) /\
  (forall w scope i fl b st st' vs, NoDup (names st) ->
     make_cov_vars k w scope [ConvInputSUA i fl b] st = Ok st' ->
     var_scope w (ConvInputSUA i fl b) = Ok vs ->
     (forall v, In v st -> ~ begins (slash (slash scope vs) "mu/") (v_name v)) ->
     (In (slash (slash scope vs) "mu/var") (names st') <->
      last_given (map c_zero_mean cs) false = false)) /\
  k_sub_inputs k = last_given (map c_sub_inputs cs) false /\
  k_sub_patches k = last_given (map c_sub_patches cs) false /\
  k_strategy k = last_given (map c_strategy cs) "separate" /\
  (forall i g, last_given (map c_strategy cs) "separate" <> "concat" ->
     last_given (map c_strategy cs) "separate" <> "separate" ->
     process_data (k_strategy k) i g = Raise ValueError).
Proof.
  intros cs k. destruct (settings cs) as (_ & ZD & _ & ZM & SI & SP & TS). fold k in ZD, ZM, SI, SP, TS.
  split; [intros; unfold value; rewrite ZD; reflexivity|].
  split; [intros; rewrite <- ZM; eapply mean_kept; eauto|].
  repeat split; auto. intros i g A B. rewrite TS. unfold process_data.
  apply String.eqb_neq in A, B. rewrite A, B. reflexivity.
Qed.
Print Assumptions C93_settings_partial.

Example C93_example : last_given (map c_zero_debias C93_calls) true = true /\
  last_given (map c_zero_mean C93_calls) false = false /\
  last_given (map c_strategy C93_calls) "separate" = "concat" /\
  (exists st, make_cov_vars (after_calls C93_calls) ex_world "kfac"
                [ConvInputSUA [OTensor 5] [3; 3; 2; 4] false] [] = Ok st).
Proof. repeat split. eexists. vm_compute. reflexivity. Qed.

(* ------------------------------------------------------------------------ *)
(** * C94 *)

(** Under both strategies, and for any number of towers and sources, the statistics of a layer
    from [n] to [m] features have one row per parameter that reads a feature, and one for the
    bias. *)
Theorem C94_sizes : forall w strategy l n m,
  strategy = "concat" \/ strategy = "separate" ->
  (forall d, In d (data_of l) -> d <> []) -> 1 < List.length (data_of l) ->
  from_to w l n m ->
  exists fs, layer_factors strategy l = Ok fs /\ mapm (cov_shape w) fs = Ok (sizes l n m).
Proof. exact shapes_match. Qed.
Print Assumptions C94_sizes.

Example C94_example :
  from_to ex_world (LFC [0; 1] [[3; 4]] true false false) 3 2 /\
  sizes (LFC [0; 1] [[3; 4]] true false false) 3 2 = [[4; 4]; [2; 2]] /\
  from_to ex_world (LConv [5] [[6]] (ex_conv None None) false) 2 4 /\
  sizes (LConv [5] [[6]] (ex_conv None None) false) 2 4 = [[18; 18]; [4; 4]].
Proof.
  split; [|split; [reflexivity|split; [|reflexivity]]].
  - split; repeat constructor; exists 8; reflexivity.
  - split; [|exists [3; 3]; reflexivity].
    split; repeat constructor; exists 8, [9; 9]; reflexivity.
Qed.
