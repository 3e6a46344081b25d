(** Entry points of the optimizer. *)
From Coq Require Import String QArith Arith Bool List Reals Lia Permutation.
From Verif.Base Require Import Py.
From Verif.Train Require Import Model.
From Verif.Curv Require Model Spec BlockProofs.
From Verif.Est Require Import Model Spec ThunkProofs.
Import ListNotations.
Open Scope list_scope.

Lemma mapM_all (grad : nat -> option vec) vs gvs :
  mapM (fun v => match grad v with None => Raise AttributeError | Some x => Ok (x, v) end) vs = Ok gvs <->
  Forall2 (fun v p => grad v = Some (fst p) /\ snd p = v) vs gvs.
Proof.
  revert gvs. induction vs as [|v vs IH]; intro gvs; cbn.
  - split; [intros [= <-]; constructor|]. intro H. now inversion H.
  - destruct (grad v) as [x|] eqn:E; cbn.
    + destruct (mapM _ vs) as [r|e] eqn:Er; cbn.
      * split.
        -- intros [= <-]. constructor; [now split|]. now apply IH.
        -- intro H. inversion H; subst. destruct H2 as [H1 H2]. destruct y as [x' v']. cbn in *. subst.
           apply IH in H4. congruence.
      * split; [discriminate|]. intro H. inversion H; subst. apply IH in H4. discriminate.
    + split; [discriminate|]. intro H. inversion H; subst. destruct H2; congruence.
Qed.

Lemma all_grads grad vs gvs : Forall2 (fun (v : nat) (p : vec * nat) => grad v = Some (fst p) /\ snd p = v) vs gvs ->
  map snd gvs = vs.
Proof. induction 1 as [|v p vs gvs [_ H] _ IH]; cbn; congruence. Qed.

Lemma all_grads_perm grad vs vs' gvs : Permutation vs vs' ->
  Forall2 (fun (v : nat) (p : vec * nat) => grad v = Some (fst p) /\ snd p = v) vs gvs ->
  exists gvs', Forall2 (fun v p => grad v = Some (fst p) /\ snd p = v) vs' gvs' /\ Permutation gvs gvs'.
Proof.
  intro P. revert gvs. induction P as [|x l l' P IH|x y l|l l' l'' P1 IH1 P2 IH2]; intros gvs H.
  - inversion H; subst. exists []. split; [constructor|apply perm_nil].
  - inversion H; subst. destruct (IH _ H4) as (g & G & Q). exists (y :: g). split; [now constructor|now constructor].
  - inversion H; subst. inversion H4; subst. exists (y1 :: y0 :: l'0). split; [now repeat constructor|constructor].
  - destruct (IH1 _ H) as (g & G & Q). destruct (IH2 _ G) as (g' & G' & Q'). exists g'. split; [exact G'|].
    now apply perm_trans with g.
Qed.

Lemma check_ok r l : check_var_list r l = Ok tt <-> (forall v, In v l <-> In v r).
Proof.
  unfold check_var_list. destruct (forallb (fun v => mem v r) l) eqn:E1; cbn.
  - rewrite forallb_forall in E1. destruct (forallb (fun v => mem v l) r) eqn:E2.
    + rewrite forallb_forall in E2. split; [|reflexivity]. intros _ v. split; intro H; [now apply mem_in, E1|now apply mem_in, E2].
    + split; [discriminate|]. intro H. assert (forallb (fun v => mem v l) r = true); [|congruence].
      apply forallb_forall. intros v Hv. now apply mem_in, H.
  - split; [discriminate|]. intro H. assert (forallb (fun v => mem v r) l = true); [|congruence].
    apply forallb_forall. intros v Hv. now apply mem_in, H.
Qed.
Lemma check_raises r l : check_var_list r l = Ok tt \/ check_var_list r l = Raise ValueError.
Proof. unfold check_var_list. destruct (_ && _); auto. Qed.

Lemma check_self r : check_var_list r r = Ok tt.
Proof. apply check_ok. tauto. Qed.

Section Entry.
Variable FB : Type.
Variable blocks : list (Curv.Model.bkey * FB).
Variable transform : FB -> Curv.Model.bval vec -> res (Curv.Model.bval vec).
Hypothesis Hb : NoDup (Curv.Spec.all_vars blocks).

Lemma minimize_none registered trainable grad :
  minimize blocks transform registered trainable grad None =
  do gvs <- mapM (fun v => match grad v with None => Raise AttributeError | Some x => Ok (x, v) end) registered ;
  precondition blocks transform gvs.
Proof. unfold minimize, compute_and_apply, compute_gradients. cbn [bind]. now rewrite check_self. Qed.

Lemma some_ok registered trainable grad l : (forall v, In v l <-> In v registered) ->
  minimize blocks transform registered trainable grad (Some l) =
  (do gvs <- mapM (fun v => match grad v with None => Raise AttributeError | Some x => Ok (x, v) end) l ;
   precondition blocks transform gvs) /\
  compute_and_apply blocks transform registered trainable grad (Some l) =
  (do gvs <- mapM (fun v => match grad v with None => Raise AttributeError | Some x => Ok (x, v) end) l ;
   precondition blocks transform gvs).
Proof.
  intro H. apply check_ok in H. unfold minimize, compute_and_apply, compute_gradients. rewrite H. cbn [bind].
  rewrite H. now split.
Qed.

Lemma permuted grad l l' out : NoDup l -> Permutation l l' ->
  (do gvs <- mapM (fun v => match grad v with None => Raise AttributeError | Some x => Ok (x, v) end) l ;
   precondition blocks transform gvs) = Ok out ->
  exists out', (do gvs <- mapM (fun v => match grad v with None => Raise AttributeError | Some x => Ok (x, v) end) l' ;
   precondition blocks transform gvs) = Ok out' /\ Permutation out out' /\ map snd out' = l'.
Proof.
  intros N P H. destruct (mapM _ l) as [gvs|e] eqn:E; [|discriminate]. cbn [bind] in H.
  apply mapM_all in E. destruct (all_grads_perm _ _ _ _ P E) as (gvs' & E' & P').
  pose proof (all_grads _ _ _ E) as S. pose proof (all_grads _ _ _ E') as S'.
  apply mapM_all in E'. rewrite E'. cbn [bind]. unfold precondition in *.
  destruct (Curv.BlockProofs.ct_perm transform blocks gvs gvs' out Hb) as (out' & K & K1 & K2); try assumption.
  - now rewrite S.
  - exists out'. rewrite S' in K2. auto.
Qed.

Lemma unregistered grad trainable v : NoDup trainable ->
  In v trainable -> ~ In v (Curv.Spec.all_vars blocks) ->
  exists e, (do gvs <- mapM (fun v => match grad v with None => Raise AttributeError | Some x => Ok (x, v) end) trainable ;
   precondition blocks transform gvs) = Raise e.
Proof.
  intros N Hv Hn. destruct (mapM _ trainable) as [gvs|e] eqn:E; [|exists e; reflexivity]. cbn [bind].
  apply mapM_all in E. pose proof (all_grads _ _ _ E) as S. unfold precondition.
  apply (Curv.BlockProofs.ct_wrong_vars transform blocks gvs v Hb); rewrite S; [exact N|now right].
Qed.
End Entry.
