(** Nested structures with names replaced. *)
From Coq Require Import List String QArith Bool Arith Lia.
From Verif.Base Require Import Py.
From Verif.Keras Require Import Compile CompileSpec.
Import ListNotations.
Open Scope string_scope.
Open Scope list_scope.

Lemma get_find {A} (d : list (string * A)) k :
  get d k = match find (fun e => String.eqb k (fst e)) d with Some e => Some (snd e) | None => None end.
Proof. induction d as [|[k' v] d IH]; [reflexivity|]. cbn. destruct (String.eqb k k'); [reflexivity|exact IH]. Qed.

Lemma get_set {A} (d : list (string * A)) k v k' :
  get (set d k v) k' = if String.eqb k' k then Some v else get d k'.
Proof.
  induction d as [|[x w] d IH]; [reflexivity|]. cbn [set].
  destruct (String.eqb_spec k x) as [->|N]; cbn [get].
  - destruct (String.eqb k' x); reflexivity.
  - rewrite IH. destruct (String.eqb_spec k' x) as [->|N']; [|reflexivity].
    destruct (String.eqb_spec x k); [congruence|reflexivity].
Qed.

Definition customs_of kfac (co : option (list (string * nat))) : list (string * nat) :=
  set (match co with None => [] | Some d => d end) "Kfac" kfac.

Lemma customs_known kfac co s : get (customs_of kfac co) s = known kfac co s.
Proof.
  unfold customs_of, known. rewrite get_set. destruct (String.eqb s "Kfac"); [reflexivity|].
  destruct co as [d|]; [apply get_find|reflexivity].
Qed.

Lemma load_args_eq kfac os ls co tc :
  fst (load_args kfac os ls co tc) = compile_args os ls (customs_of kfac co) tc.
Proof. unfold load_args, customs_of. destruct co as [[|e d]|]; reflexivity. Qed.

Definition leaf (v : val) : Prop := match v with Lst _ | Dict _ => False | _ => True end.
Lemma leaf_map f v : leaf v -> map_structure f v = f v.
Proof. destruct v; cbn; tauto. Qed.
Lemma leaf_at v s p : leaf v -> at_path v (s :: p) = None.
Proof. destruct s, v; cbn; tauto. Qed.

(** Looking into a structure and replacing names commute. *)
Lemma at_path_map f (F : forall v, leaf v -> leaf (f v)) p : forall v,
  at_path (map_structure f v) p = option_map (map_structure f) (at_path v p).
Proof.
  induction p as [|s p IH]; intro v; [reflexivity|].
  assert (C : leaf v \/ (exists l, v = Lst l) \/ exists d, v = Dict d) by (destruct v; cbn; eauto).
  destruct C as [L|[[l ->]|[d ->]]].
  - rewrite (leaf_map f v L), !leaf_at; auto.
  - destruct s as [n|k]; [|reflexivity]. cbn [at_path map_structure]. rewrite nth_error_map.
    destruct (nth_error l n); [apply IH|reflexivity].
  - destruct s as [n|k]; [reflexivity|]. cbn [at_path map_structure].
    induction d as [|[k' x] d IHd]; [reflexivity|]. cbn [map find fst].
    destruct (String.eqb k k'); [apply IH|exact IHd].
Qed.

Lemma replace_leaf customs v : leaf v -> leaf (replace customs v).
Proof. destruct v; cbn; try tauto. intros _. destruct (get customs s); exact I. Qed.

Lemma map_replace kfac co v :
  same_up_to_names (known kfac co) v (map_structure (replace (customs_of kfac co)) v).
Proof.
  intro p. rewrite at_path_map by (intros; now apply replace_leaf).
  destruct (at_path v p) as [x|]; [|exact I]. cbn [option_map].
  destruct x; cbn [map_structure replace means]; try reflexivity.
  - rewrite customs_known. destruct (known kfac co s); reflexivity.
  - now rewrite map_length.
  - rewrite map_map. apply map_ext. now intros [k x].
Qed.
