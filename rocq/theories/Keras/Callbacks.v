(** Model of kfac/python/keras/callbacks.py. *)
From Coq Require Import String.
From Coq Require Import Reals ZArith List Bool.
From Verif.Base Require Import Py.
Import ListNotations.
Local Open Scope R_scope.

(** Python's [x ** y] for floats.  Simplification: a negative base with a float exponent (a
    complex number, which cannot be assigned to the hyperparameter) is an error at once. *)
Definition fpow (x y : R) : res R :=
  if Rlt_dec 0 x then Ok (Rpower x y)
  else if Req_EM_T x 0
       then if Rlt_dec 0 y then Ok 0 else if Req_EM_T y 0 then Ok 1 else Raise ZeroDivisionError
       else Raise TypeError.

(** callbacks.py:45-51, on_train_begin: [attrs] are the attributes of the optimizer. *)
Definition on_train_begin (attrs : list string) (hyperparameter : string) : res unit :=
  if negb (existsb (String.eqb hyperparameter) attrs) then Raise ValueError
  else if negb (existsb (String.eqb "iterations"%string) attrs) then Raise ValueError
  else Ok tt.

(** 65-67, _get_global_step *)
Definition get_global_step (iterations num_delay_steps : Z) : Z := (iterations - num_delay_steps)%Z.

(** 107-113, PolynomialDecay.on_batch_begin; the result is the value of the hyperparameter. *)
Definition poly_on_batch_begin (init_value final_value power : R) (num_decay_steps num_delay_steps : Z)
    (iterations : Z) (value : R) : res R :=
  let step := get_global_step iterations num_delay_steps in
  if Z.ltb 0 step && Z.leb step num_decay_steps
  then do p <- fpow (1 - IZR step / IZR num_decay_steps) power;
       Ok ((init_value - final_value) * p + final_value)
  else Ok value.

(** Truth of an optional number. *)
Definition truthy (x : option R) : bool :=
  match x with None => false | Some r => if Req_EM_T r 0 then false else true end.
Definition ztruthy (x : option Z) : bool :=
  match x with None => false | Some z => negb (Z.eqb z 0) end.

(** The three decay functions of 168-176. *)
Inductive decay :=
| Floored (init_value decay_rate final_value : R)
| Plain (init_value decay_rate : R)
| Towards (init_value final_value : R) (num_decay_steps : Z).

(** 159-179, ExponentialDecay.__init__: the decay function and _num_decay_steps. *)
Definition exp_init (init_value : R) (final_value decay_rate : option R) (num_decay_steps : option Z)
  : res (decay * option Z) :=
  if truthy final_value && truthy decay_rate && ztruthy num_decay_steps then Raise ValueError
  else match final_value, decay_rate, num_decay_steps with
  | f, r, n =>
      if truthy f && truthy r
      then match f, r with
           | Some fv, Some rv => Ok (Floored init_value rv fv, n)
           | _, _ => Raise ValueError
           end
      else if truthy r && ztruthy n
      then match r with Some rv => Ok (Plain init_value rv, n) | None => Raise ValueError end
      else if truthy f && ztruthy n
      then match f, n with
           | Some fv, Some nv => Ok (Towards init_value fv nv, n)
           | _, _ => Raise ValueError
           end
      else Raise ValueError
  end.

Definition decay_func (d : decay) (step : Z) : res R :=
  match d with
  | Floored i r f => Ok (Rmax (i * r ^ Z.to_nat step) f)
  | Plain i r => Ok (i * r ^ Z.to_nat step)
  | Towards i f n =>
      if Req_EM_T i 0 then Raise ZeroDivisionError
      else do p <- fpow (f / i) (IZR step / IZR n); Ok (i * p)
  end.

(** 181-186, ExponentialDecay.on_batch_begin *)
Definition exp_on_batch_begin (d : decay) (num_decay_steps : option Z) (num_delay_steps : Z)
    (iterations : Z) (value : R) : res R :=
  let step := get_global_step iterations num_delay_steps in
  if Z.ltb 0 step &&
     (negb (ztruthy num_decay_steps) ||
      match num_decay_steps with Some n => Z.leb step n | None => false end)
  then decay_func d step else Ok value.

(** Training: [n] batches from iteration [iterations] on; each batch calls the callback and adds
    one to the iterations (optimizers.py:407, global_step).  Nothing else sets the value. *)
Fixpoint train (on_batch_begin : Z -> R -> res R) (iterations : Z) (n : nat) (value : R) : res R :=
  match n with
  | O => Ok value
  | S n' => do v <- on_batch_begin iterations value; train on_batch_begin (iterations + 1) n' v
  end.
