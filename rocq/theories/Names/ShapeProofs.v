(** The statistics have the sizes the parameters need. *)
From Coq Require Import String Ascii List Arith Bool Lia QArith Reals Permutation.
From Verif.Base Require Import Py.
From Verif.Names Require Import Model Spec VarProofs.
Import ListNotations.
Open Scope string_scope.
Open Scope nat_scope.
Open Scope list_scope.

(** The data as the factors get them: the first object of each list stands for non-empty
    data of the layer. *)
Definition stands_for (o : obj) (ts : list nat) : Prop :=
  ts <> [] /\ (o = OParts ts \/ exists t, In t ts /\ o = OTensor t).

Lemma process_shape st i g : st = "concat" \/ st = "separate" ->
  (forall d, In d (i :: g) -> d <> []) -> g <> [] ->
  exists i' g' oi og gs, process_data st i g = Ok (i', g') /\ head i' = Ok oi /\ stands_for oi i /\
    head2 g' = Ok og /\ In gs g /\ stands_for og gs.
Proof.
  intros S N G. assert (I := N i (or_introl eq_refl)). destruct i as [|a i]; [congruence|].
  destruct g as [|h g]; [congruence|].
  assert (H := N h (or_intror (or_introl eq_refl))). destruct h as [|b h]; [congruence|].
  destruct S as [-> | ->]; unfold process_data; cbn [String.eqb Ascii.eqb Bool.eqb parts bind mapm].
  - destruct (mapm (fun g0 => do o <- parts g0; Ok [o]) g) as [gs|e] eqn:E.
    + cbn [bind]. eexists _, _, _, _, (b :: h). split; [reflexivity|].
      repeat split; try discriminate; auto; simpl; auto.
    + exfalso. destruct (mapm_total (fun g0 : list nat => do o <- parts g0; Ok [o]) g) as (x & X); [|congruence].
      intros d D. assert (Y := N d (or_intror (or_intror D))). destruct d; [congruence|]. cbn. eauto.
  - eexists _, _, _, _, (b :: h). split; [reflexivity|]. cbn [map head head2 bind].
    repeat split; try discriminate; try (right; eexists; split; [left; reflexivity|reflexivity]); simpl; auto.
Qed.

Section Shapes.
  Variable w : world.

  Lemma rows_stand P o ts : stands_for o ts -> Forall P ts -> (forall t, P t -> thot w t = None) ->
    obj_hot w o = None.
  Proof.
    intros (N & [-> | (t & I & ->)]) F H.
    - destruct ts; [congruence|]. cbn. inversion F; auto.
    - rewrite Forall_forall in F. cbn. auto.
  Qed.

  Lemma rows_cases hot n o ts : stands_for o ts -> Forall (rows_of w hot n) ts ->
    (obj_hot w o = None /\ exists b, obj_shape w o = Ok [b; n]) \/ (hot = true /\ obj_hot w o = Some n).
  Proof.
    intros (N & [-> | (t & I & ->)]) F.
    - destruct ts as [|t ts]; [congruence|]. inversion F as [|? ? R F']; subst. cbn.
      destruct R as [(H & b & S)|(H & D)]; auto. left. split; auto. rewrite S. cbn. eauto.
    - rewrite Forall_forall in F. destruct (F t I) as [(H & b & S)|(H & D)]; cbn; auto.
      left. rewrite S. eauto.
  Qed.
  Lemma series_cases hot n o ts : stands_for o ts -> Forall (rows_of_series w hot n) ts ->
    (obj_hot w o = None /\ exists s, obj_shape w o = Ok s /\ multi_dim s = Ok n) \/
    (hot = true /\ obj_hot w o = Some n).
  Proof.
    intros (N & [-> | (t & I & ->)]) F.
    - destruct ts as [|t ts]; [congruence|]. inversion F as [|? ? R F']; subst. cbn.
      destruct R as [(H & b & S)|(H & D)]; auto. left. split; auto.
      destruct S as [S|(k & S)]; rewrite S; cbn; eauto.
    - rewrite Forall_forall in F. destruct (F t I) as [(H & b & S)|(H & D)]; cbn; auto.
      left. split; auto. destruct S as [S|(k & S)]; rewrite S; eauto.
  Qed.
  Lemma channel_case n o ts : stands_for o ts -> Forall (channels w n) ts ->
    exists s r, obj_shape w o = Ok s /\ rev s = n :: r.
  Proof.
    assert (L : forall b s, exists r, rev (b :: s ++ [n]) = n :: r).
    { intros b s. change (b :: s ++ [n]) with ((b :: s) ++ [n]). rewrite rev_app_distr. cbn. eauto. }
    intros (N & [-> | (t & I & ->)]) F.
    - destruct ts as [|t ts]; [congruence|]. inversion F as [|? ? R F']; subst.
      destruct R as (b & s & S). cbn. rewrite S. cbn [tl nth].
      destruct (L (b + fold_right Nat.add 0 (map (fun u => nth 0 (tshape w u) 0) ts)) s) as (r & E).
      eexists _, _. split; [reflexivity|]. exact E.
    - rewrite Forall_forall in F. destruct (F t I) as (b & s & S). cbn. rewrite S.
      destruct (L b s) as (r & E). eauto.
  Qed.

  Lemma bias_b2n (b : bool) k : (if b then S k else k) = k + b2n b.
  Proof. destruct b; cbn; lia. Qed.

  Lemma filter_size k n m : conv_input_size (k ++ [n; m]) = Ok (positions (k ++ [n; m]) * n).
  Proof.
    unfold conv_input_size, positions. rewrite rev_app_distr. cbn [rev app]. rewrite rev_involutive.
    rewrite app_length. cbn [List.length]. replace (List.length k + 2 - 2) with (List.length k) by lia.
    rewrite firstn_app, Nat.sub_diag, firstn_O, app_nil_r, firstn_all. reflexivity.
  Qed.

  Lemma shapes_match st l n m : st = "concat" \/ st = "separate" ->
    (forall d, In d (data_of l) -> d <> []) -> 1 < List.length (data_of l) -> from_to w l n m ->
    exists fs, layer_factors st l = Ok fs /\ mapm (cov_shape w) fs = Ok (sizes l n m).
  Proof.
    intros S N G D.
    assert (Q : forall i g, data_of l = i :: g -> g <> [] /\
      forall d, In d (i :: g) -> d <> []).
    { intros i g E. rewrite E in *. split; auto. destruct g; [cbn in G; lia|discriminate]. }
    destruct l; cbn [from_to] in D; try contradiction; cbn [data_of] in Q;
      destruct (Q _ _ eq_refl) as [Q1 Q2];
      destruct (process_shape st _ _ S Q2 Q1) as (i' & g' & oi & og & gs & E & Hi & Si & Hg & Gg & Sg);
      cbn [layer_factors]; rewrite E; cbn [bind]; eexists; (split; [reflexivity|]);
      unfold head2 in Hg.
    - destruct D as [Di Dg]. rewrite Forall_forall in Dg.
      destruct (rows_cases _ _ _ _ Si Di) as [(A1 & b & A2)|(? & _)]; [|discriminate].
      destruct (rows_cases _ _ _ _ Sg (Dg _ Gg)) as [(B1 & b' & B2)|(? & _)]; [|discriminate].
      cbn [mapm cov_shape]. unfold head2. rewrite Hi, Hg. cbn [bind]. rewrite A2. cbn [bind].
      unfold dim. cbn [nth_error bind]. rewrite B2. cbn [bind nth_error sizes]. rewrite bias_b2n. reflexivity.
    - destruct D as [[Di Dg] (h & k & F)]. cbn [mapm cov_shape]. rewrite F. cbn [bind sizes].
      rewrite F, bias_b2n. unfold positions. cbn. rewrite !Nat.mul_1_r. reflexivity.
    - destruct D as [Di Dg]. rewrite Forall_forall in Dg.
      pose proof (rows_cases _ _ _ _ Si Di) as Ri. pose proof (rows_cases _ _ _ _ Sg (Dg _ Gg)) as Rg.
      cbn [mapm sizes]. rewrite bias_b2n.
      assert (A : cov_shape w (if din then DiagonalKronecker [i'] bias else FCKronecker [i'] bias) =
        Ok (if din then [n + b2n bias] else [n + b2n bias; n + b2n bias])).
      { destruct Ri as [(A1 & b & A2)|(-> & A1)].
        - destruct din; cbn [cov_shape]; unfold head2; cbn [head bind]; rewrite Hi; cbn [bind];
            rewrite ?A1, A2; reflexivity.
        - cbn [cov_shape]. unfold head2; cbn [head bind]. rewrite Hi. cbn [bind]. rewrite A1. reflexivity. }
      assert (B : cov_shape w (if dout then DiagonalKronecker g' false else FCKronecker g' false) =
        Ok (if dout then [m] else [m; m])).
      { destruct Rg as [(A1 & b & A2)|(-> & A1)].
        - destruct dout; cbn [cov_shape]; unfold head2; rewrite Hg; cbn [bind];
            rewrite ?A1, A2; cbn; rewrite Nat.add_0_r; reflexivity.
        - cbn [cov_shape]. unfold head2. rewrite Hg. cbn [bind]. rewrite A1. cbn. rewrite Nat.add_0_r. reflexivity. }
      rewrite A, B. reflexivity.
    - destruct D as [[Di Dg] (k & F)]. rewrite Forall_forall in Dg.
      destruct (channel_case _ _ _ Sg (Dg _ Gg)) as (s & r & B1 & B2).
      assert (B : cov_shape w (ConvOutput g') = Ok [m; m]).
      { cbn [cov_shape]. unfold head2. rewrite Hg. cbn [bind]. rewrite B1. cbn [bind]. rewrite B2. reflexivity. }
      cbn [mapm]. rewrite B. destruct sua; cbn [cov_shape sizes].
      + rewrite F. unfold in_channels. rewrite rev_app_distr. reflexivity.
      + rewrite F, filter_size, bias_b2n. reflexivity.
    - destruct D as [Di Dg]. rewrite Forall_forall in Dg.
      pose proof (series_cases _ _ _ _ Si Di) as Ri. pose proof (series_cases _ _ _ _ Sg (Dg _ Gg)) as Rg.
      cbn [mapm sizes]. rewrite bias_b2n.
      assert (A : cov_shape w (if din then DiagonalMulti [i'] uses bias else FCMulti [i'] (Some uses) bias false) =
        Ok (if din then [n + b2n bias] else [n + b2n bias; n + b2n bias])).
      { destruct Ri as [(A1 & b & A2 & A3)|(-> & A1)].
        - destruct din; cbn [cov_shape]; unfold head2; cbn [head bind]; rewrite Hi; cbn [bind];
            rewrite ?A1, A2; cbn [bind]; rewrite A3; reflexivity.
        - cbn [cov_shape]. unfold head2; cbn [head bind]. rewrite Hi. cbn [bind]. rewrite A1. reflexivity. }
      assert (B : cov_shape w (if dout then DiagonalMulti g' uses false else FCMulti g' (Some uses) false false) =
        Ok (if dout then [m] else [m; m])).
      { destruct Rg as [(A1 & b & A2 & A3)|(-> & A1)].
        - destruct dout; cbn [cov_shape]; unfold head2; rewrite Hg; cbn [bind];
            rewrite ?A1, A2; cbn [bind]; rewrite A3; cbn; rewrite Nat.add_0_r; reflexivity.
        - cbn [cov_shape]. unfold head2. rewrite Hg. cbn [bind]. rewrite A1. cbn. rewrite Nat.add_0_r. reflexivity. }
      rewrite A, B. reflexivity.
    - destruct D as [[Di Dg] (k & F)]. rewrite Forall_forall in Dg.
      destruct (channel_case _ _ _ Sg (Dg _ Gg)) as (s & r & B1 & B2).
      assert (B : cov_shape w (ConvOutputMulti g' uses) = Ok [m; m]).
      { cbn [cov_shape]. unfold head2. rewrite Hg. cbn [bind]. rewrite B1. cbn [bind]. rewrite B2. reflexivity. }
      cbn [mapm]. rewrite B. cbn [cov_shape sizes conv_multi_args cv_filter cv_bias].
      rewrite F, filter_size, bias_b2n. reflexivity.
    - destruct D as [Di Dg]. rewrite Forall_forall in Dg.
      destruct (series_cases _ _ _ _ Si Di) as [(A1 & b & A2 & A3)|(? & _)]; [|discriminate].
      destruct (series_cases _ _ _ _ Sg (Dg _ Gg)) as [(B1 & b' & B2 & B3)|(? & _)]; [|discriminate].
      cbn [mapm cov_shape sizes]. unfold head2. cbn [head bind]. rewrite Hi, Hg. cbn [bind].
      rewrite A2, B2. cbn [bind]. rewrite A3, B3. cbn [bind]. rewrite bias_b2n. cbn. rewrite Nat.add_0_r. reflexivity.
  Qed.
End Shapes.
