(** Factors whose names show a difference have their own statistics. *)
From Coq Require Import String Ascii List Arith Bool Lia QArith Reals Permutation.
From Verif.Base Require Import Py.
From Verif.Names Require Import Model Spec StringProofs ScopeProofs VarProofs.
Import ListNotations.
Open Scope string_scope.
Open Scope nat_scope.
Open Scope list_scope.

Local Arguments String.append : simpl nomatch.
Local Arguments slash : simpl never.

Lemma NoDup_map_neq {A B} (h : A -> B) l x y : NoDup (map h l) -> In x l -> In y l -> x <> y -> h x <> h y.
Proof.
  induction l as [|a l IH]; cbn; [tauto|]. intros D [<-|I] [<-|J] N; try congruence.
  - inversion D; subst. intros E. apply H1. rewrite E. apply in_map; auto.
  - inversion D; subst. intros E. apply H1. rewrite <- E. apply in_map; auto.
  - inversion D; subst. apply IH; auto.
Qed.

Section Set_of_factors.
  Variables (k : consts) (w : world) (scope : string) (ts : list nat).
  Hypothesis T : tell_apart w ts.

  Definition fine (f : factor) : Prop :=
    proper f /\ incl (shown_tensors f) ts /\ exists s, cov_shape w f = Ok s.

  Lemma fine_reqs f : fine f -> exists rq, cov_reqs k w scope f = Ok rq.
  Proof.
    intros (P & _ & s & S). destruct (var_scope_form w f P) as (vs & V & _).
    unfold cov_reqs. rewrite V, S. cbn [bind]. eauto.
  Qed.

  Lemma reqs_apart f g rq rq' : fine f -> fine g -> shown_of f <> shown_of g ->
    cov_reqs k w scope f = Ok rq -> cov_reqs k w scope g = Ok rq' ->
    forall v u, In v rq -> In u rq' -> v_name v <> v_name u.
  Proof.
    intros (P & I & _) (Q & J & _) N R R' v u V U E.
    destruct (var_scope_form w f P) as (a & A & _), (var_scope_form w g Q) as (b & B & _).
    destruct (cov_reqs_scope _ _ _ _ _ _ A R v V) as (x & X).
    destruct (cov_reqs_scope _ _ _ _ _ _ B R' u U) as (y & Y).
    rewrite X, Y in E.
    apply slash_inj in E;
      [|apply (scope_no_slash w ts f); auto|apply (scope_no_slash w ts g); auto].
    destruct E as [-> _]. apply N. apply (scope_shows w ts f g b); auto.
  Qed.

  Lemma all_nodup fs rqs : Forall fine fs -> NoDup (map shown_of fs) ->
    mapm (cov_reqs k w scope) fs = Ok rqs -> NoDup (names (concat rqs)).
  Proof.
    intros F. revert rqs. induction F as [|f fs Ff F IH]; intros rqs D E.
    - cbn in E. injection E as <-. constructor.
    - cbn in E. apply bind_ok in E as (rq & E & G). apply bind_ok in G as (rqs' & G & K).
      apply Ok_inj in K. subst rqs. cbn [concat]. rewrite names_app. inversion D as [|? ? N D']; subst.
      apply NoDup_app'.
      + eapply cov_reqs_nodup; eauto.
      + apply IH; auto.
      + intros n I J. apply in_map_iff in I as (v & <- & I). apply in_map_iff in J as (u & E' & J).
        apply in_concat in J as (rq' & J' & J).
        apply mapm_forall2 in G.
        assert (exists g, In g fs /\ cov_reqs k w scope g = Ok rq') as (g & Ig & Eg).
        { clear -G J'. induction G; [destruct J'|]. destruct J' as [<-|J'].
          - exists x. simpl; auto.
          - destruct IHG as (g & ? & ?); auto. exists g. simpl; auto. }
        apply (reqs_apart f g rq rq' Ff) with (v := v) (u := u); auto.
        * rewrite Forall_forall in F. auto.
        * intros Q. apply N. rewrite Q. apply in_map; auto.
  Qed.

  Lemma in_scope fs rqs : mapm (cov_reqs k w scope) fs = Ok rqs ->
    (forall f, In f fs -> proper f) ->
    forall v, In v (concat rqs) -> begins (scope ++ "/") (v_name v).
  Proof.
    intros E P v I. apply in_concat in I as (rq & R & I). apply mapm_forall2 in E.
    assert (exists f, In f fs /\ cov_reqs k w scope f = Ok rq) as (f & Fi & Fe).
    { clear -E R. induction E; [destruct R|]. destruct R as [<-|R].
      - exists x. simpl; auto.
      - destruct IHE as (g & ? & ?); auto. exists g. simpl; auto. }
    destruct (var_scope_form w f (P f Fi)) as (a & A & _).
    destruct (cov_reqs_scope _ _ _ _ _ _ A Fe v I) as (x & ->).
    exists (a ++ "/" ++ x)%string. unfold slash. rewrite !sapp_assoc. reflexivity.
  Qed.

  Lemma ask_new v st : ~ In (v_name v) (names st) -> ask true v st = Ok (st ++ [v]).
  Proof.
    intros N. apply lookup_none in N. unfold ask, get_variable. rewrite N. destruct v; reflexivity.
  Qed.
  Lemma asks_new rq : forall st, NoDup (names rq) -> (forall v, In v rq -> ~ In (v_name v) (names st)) ->
    foldm (ask true) rq st = Ok (st ++ rq).
  Proof.
    induction rq as [|v rq IH]; intros st D F; cbn [foldm].
    - rewrite app_nil_r. reflexivity.
    - rewrite ask_new by (apply F; simpl; auto). cbn [bind]. inversion D as [|? ? N D']; subst.
      rewrite IH; auto.
      + rewrite <- app_assoc. reflexivity.
      + intros u I J. rewrite names_app in J. apply in_app_or in J as [J|J].
        * apply (F u); simpl; auto.
        * destruct J as [J|[]]. apply N. cbn in J. rewrite J. apply in_map; auto.
  Qed.

  Lemma own_variables fs st : Forall fine fs -> NoDup (map shown_of fs) -> unused scope st ->
    exists rqs, mapm (cov_reqs k w scope) fs = Ok rqs /\
      make_cov_vars k w scope fs st = Ok (st ++ concat rqs) /\ NoDup (names (concat rqs)).
  Proof.
    intros F D U. rewrite Forall_forall in F.
    destruct (mapm_total (cov_reqs k w scope) fs) as (rqs & E); [intros; apply fine_reqs; auto|].
    assert (N : NoDup (names (concat rqs))) by (apply (all_nodup fs); auto; apply Forall_forall; auto).
    exists rqs. split; auto. split; auto. apply make_cov_asks. exists rqs. split; auto.
    apply asks_new; auto. intros v I J. apply in_map_iff in J as (u & Eu & J). apply (U u J).
    rewrite Eu. eapply in_scope; eauto. intros f Fi. apply F; auto.
  Qed.

  Lemma stat_vars_reqs f rq : cov_reqs k w scope f = Ok rq ->
    exists vw s, stat_vars w scope f = Ok vw /\ cov_shape w f = Ok s /\ has_average vw s rq.
  Proof.
    unfold cov_reqs, stat_vars. intros H. apply bind_ok in H as (vs & -> & H).
    apply bind_ok in H as (s & S & H). apply Ok_inj in H. subst rq. cbn [bind].
    eexists _, s. split; [reflexivity|]. split; auto. split.
    - eexists. apply in_or_app. left. left. reflexivity.
    - apply in_or_app. left. right. left. reflexivity.
  Qed.

  Lemma own_statistics fs st : Forall fine fs -> NoDup (map shown_of fs) -> unused scope st ->
    exists st', make_cov_vars k w scope fs st = Ok st' /\
      (forall v, In v st -> In v st') /\
      (forall f, In f fs -> exists vw s, stat_vars w scope f = Ok vw /\ cov_shape w f = Ok s /\
         has_average vw s st') /\
      (forall f g vf vg, In f fs -> In g fs -> f <> g ->
         stat_vars w scope f = Ok vf -> stat_vars w scope g = Ok vg ->
         forall x decay weight m,
           value k vg (add_to_average vf x decay weight m) = value k vg m).
  Proof.
    intros F D U. destruct (own_variables fs st F D U) as (rqs & E & M & N).
    exists (st ++ concat rqs). split; auto. split; [intros; apply in_or_app; auto|].
    rewrite Forall_forall in F. split.
    - intros f I. destruct (mapm_in _ _ _ E f I) as (rq & R & J).
      destruct (stat_vars_reqs f rq R) as (vw & s & V & S & (i & A) & B).
      exists vw, s. split; auto. split; auto.
      assert (Q : forall v, In v rq -> In v (st ++ concat rqs)).
      { intros v X. apply in_or_app. right. apply in_concat. eauto. }
      split; [exists i|]; auto.
    - intros f g vf vg I J NE Vf Vg x decay weight m.
      destruct (fine_reqs f (F f I)) as (rf & Rf), (fine_reqs g (F g J)) as (rg & Rg).
      destruct (stat_vars_reqs f rf Rf) as (vw & s & V & _ & (i & A) & B).
      rewrite V in Vf. injection Vf as <-.
      destruct (stat_vars_reqs g rg Rg) as (vw' & s' & V' & _ & (i' & A') & B').
      rewrite V' in Vg. injection Vg as <-.
      assert (AP := reqs_apart f g rf rg (F f I) (F g J) (NoDup_map_neq _ _ _ _ D I J NE) Rf Rg).
      assert (X1 := AP _ _ A A'). assert (X2 := AP _ _ A B').
      assert (X3 := AP _ _ B A'). assert (X4 := AP _ _ B B'). cbn [v_name] in X1, X2, X3, X4.
      unfold value, add_to_average.
      assert (K : forall a b, a <> b -> String.eqb b a = false)
        by (intros a b H; apply String.eqb_neq; congruence).
      rewrite (K _ _ X1), (K _ _ X2), (K _ _ X3), (K _ _ X4). reflexivity.
  Qed.
End Set_of_factors.
