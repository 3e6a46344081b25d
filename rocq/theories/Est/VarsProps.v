(** C105: the lists of variables that factors give out, and the placement that relies on them. *)
From Coq Require Import String QArith Arith Bool List.
From Verif.Base Require Import Py.
From Verif.Names Require Import Model Spec Props.
From Verif.Est Require Import VarsModel VarsSpec VarsProofs.
Import ListNotations.
Open Scope string_scope.
Open Scope list_scope.

(** However the variables were made, the list of a factor other than the spatially uncorrelated one
    leads to exactly the inverse variables that were created for it, in order. *)
Theorem C105_inverse_variables_listed_partial : forall k w scope frs st st',
  make_vars k w scope frs st = Ok st' ->
  exists mid news, make_cov_vars k w scope (map fst frs) st = Ok mid /\ st' = mid ++ concat news /\
    Forall2 (fun fr new => spatially_uncorrelated (fst fr) = false ->
      exists items, get_inv_vars w scope fr = Ok items /\ concat (map behind items) = names new) frs news.
Proof.
  intros k w scope frs st st' H. destruct (all_listed _ _ _ _ _ _ H) as (mid & news & A & B & C).
  exists mid, news. split; [exact A|]. split; [exact B|]. clear -C.
  induction C as [|fr new frs news (items & G & N & _) C IH]; constructor; [|exact IH].
  intro U. exists items. split; [exact G|]. now apply N.
Qed.
Print Assumptions C105_inverse_variables_listed_partial.

(** The property as stated fails for the spatially uncorrelated factor: it has two or four variables
    for each one that it lists. *)
Theorem C105_uncorrelated_variables_refuted : forall k w scope frs st st',
  make_vars k w scope frs st = Ok st' ->
  exists mid news, make_cov_vars k w scope (map fst frs) st = Ok mid /\ st' = mid ++ concat news /\
    Forall2 (fun fr new => spatially_uncorrelated (fst fr) = true ->
      exists items, get_inv_vars w scope fr = Ok items /\ length items = length (r_matpower (snd fr)) /\
        incl (concat (map behind items)) (names new) /\
        length new = (if k_zero_mean k then 2 else 4) * length items) frs news.
Proof.
  intros k w scope frs st st' H. destruct (all_listed _ _ _ _ _ _ H) as (mid & news & A & B & C).
  exists mid, news. split; [exact A|]. split; [exact B|]. clear -C.
  induction C as [|fr new frs news (items & G & _ & N) C IH]; constructor; [|exact IH].
  intro U. exists items. split; [exact G|]. now apply N.
Qed.
Print Assumptions C105_uncorrelated_variables_refuted.

(** The inverse update of the replica round robin placement assigns every inverse variable that was
    created, once, when there is one, no factor is spatially uncorrelated and no layer has
    registered one of the approximations over time. *)
Theorem C105_replica_update_partial : forall k w scope frs st st',
  make_vars k w scope frs st = Ok st' ->
  (forall f r, In (f, r) frs -> spatially_uncorrelated f = false /\
     (series_factor f = true -> r_opt1 r = [] /\ r_opt2 r = [])) ->
  exists mid inverses, make_cov_vars k w scope (map fst frs) st = Ok mid /\ st' = mid ++ inverses /\
    replica_assigned w scope frs =
      match inverses with [] => Raise ValueError | _ => Ok (names inverses) end.
Proof.
  intros k w scope frs st st' H T. destruct (all_listed _ _ _ _ _ _ H) as (mid & news & A & B & C).
  exists mid, (concat news). split; [exact A|]. split; [exact B|].
  apply all_assigned_or_none. clear -C T.
  induction C as [|[f r] new frs news (items & G & N & _) C IH]; constructor.
  - destruct (T f r (or_introl eq_refl)) as [U S]. exists items. split; [exact G|]. split; [now apply N|].
    apply (items_kinds _ _ _ _ _ G). destruct (series_factor f); [right; auto|now left].
  - apply IH. intros f' r' Hf. apply T. now right.
Qed.
Print Assumptions C105_replica_update_partial.

(** With such a layer, building the update fails. *)
Theorem C105_replica_series_refuted : forall k w scope frs st st',
  make_vars k w scope frs st = Ok st' ->
  (exists f r, In (f, r) frs /\ series_factor f = true /\ (r_opt1 r <> [] \/ r_opt2 r <> [])) ->
  replica_assigned w scope frs = Raise AttributeError.
Proof.
  intros k w scope frs st st' H E. apply tuples_fail; [|exact E].
  destruct (all_listed _ _ _ _ _ _ H) as (mid & news & _ & _ & C). clear -C.
  induction C as [|fr new frs news (items & G & _) C IH]; [intros f r []|].
  intros f r [ -> |Hf]; eauto.
Qed.
Print Assumptions C105_replica_series_refuted.

(** The list for the statistics never holds a variable, only tensors computed from them. *)
Theorem C105_statistics_refuted : forall k w scope f st',
  instantiate_cov k w scope f [] = Ok st' ->
  exists items, get_cov_vars k w scope f = Ok items /\ items <> [] /\
    forall i, In i items -> exists ns, i = IValue ns.
Proof. intros k w scope f st' H. destruct (cov_listed _ _ _ _ _ H) as (items & A & B & C & _). eauto. Qed.
Print Assumptions C105_statistics_refuted.

(** The variables behind these tensors are all those of the factor when averages are debiased, except
    for the mean that a spatially uncorrelated factor keeps. *)
Theorem C105_statistics_partial : forall k w scope f st',
  instantiate_cov k w scope f [] = Ok st' ->
  exists items, get_cov_vars k w scope f = Ok items /\ incl (concat (map behind items)) (names st') /\
    (k_zero_debias k = true -> spatially_uncorrelated f = false \/ k_zero_mean k = true ->
     concat (map behind items) = names st') /\
    (spatially_uncorrelated f = true -> k_zero_mean k = false ->
     exists n, In n (names st') /\ ~ In n (concat (map behind items))).
Proof.
  intros k w scope f st' H. destruct (cov_listed _ _ _ _ _ H) as (items & A & _ & _ & D & E).
  exists items. split; [exact A|]. split; [exact D|]. split; [exact E|].
  intros U Z. destruct f; try discriminate. exact (cov_mean_hidden _ _ _ _ _ _ _ Z H items A).
Qed.
Print Assumptions C105_statistics_partial.

Example C105_example_plain : list (factor * regs) :=
  [(FCKronecker [[OTensor 0]] true,
    mkRegs [((- 1)%Q, C90_id "in"); ((- 1)%Q, C90_id "in2")] [C90_id "in"] [] [] []);
   (FCMulti [[OTensor 0]] (Some 2) true true, mkRegs [] [] [C90_id "a"] [] []);
   (DiagonalKronecker [[OTensor 0]] true, mkRegs [((- 1)%Q, C90_id "in")] [] [] [] [])].
Example C105_example : (exists st, make_vars imported ex_world "kfac" C105_example_plain [] = Ok st /\
    length st = 12) /\
  (exists ns, replica_assigned ex_world "kfac" C105_example_plain = Ok ns /\ length ns = 4) /\
  replica_assigned ex_world "kfac" C90_example_registered = Raise AttributeError.
Proof. split; [|split]; [eexists; split; vm_compute; reflexivity..|vm_compute; reflexivity]. Qed.
Example C105_example_uncorrelated : exists st,
  instantiate_cov imported ex_world "kfac" (ConvInputSUA [OTensor 5] [3; 3; 2; 4] false) [] = Ok st /\
  k_zero_debias imported = true.
Proof. eexists. split; vm_compute; reflexivity. Qed.
