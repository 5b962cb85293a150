(** Specification vocabulary for storch.grad. *)
From Coq Require Import String List.
From Verif Require Import Base Torch Plates Wrap SpecTensor SpecWrap.
Import ListNotations.
Open Scope list_scope.

Section Spec.
Context {V : Type}.
(** The value torch sees in the place of [v]: every storch tensor replaced by the tensor it wraps. *)
Definition bare : pyval V -> pyval V -> Prop := unwrapped (fun a u => u = st a).
(** A storch tensor that has a name, or a torch tensor. *)
Definition named_tensor (tname : stensor V -> option string) (x : pyval V) : Prop :=
  match x with PT a => exists n, tname a = Some n | PRaw _ => True | _ => False end.
(** [g] has the shape of the tensor [x]. *)
Definition gradient_shape (g : ten V) (x : pyval V) : Prop :=
  match x with PT a => shape g = shape (st a) | PRaw t => shape g = shape t | _ => False end.

(** [r], with name [n], is the gradient [g] of the outputs [outs] with respect to [x]: it has the plates, events and name of [x], and depends on
    the outputs and on [x]. *)
Inductive gradient_of (tname : stensor V -> option string) (outs : list (stensor V)) : pyval V -> ten V -> stensor V * string -> Prop :=
| G_storch : forall a g r n, wf r -> st r = g -> splates r = splates a -> s_event_shape r = s_event_shape a ->
    sparents r = map sid outs ++ [sid a] -> s_stochastic r = false -> tname a = Some n -> gradient_of tname outs (PT a) g (r, (n ++ "_grad")%string)
| G_torch : forall t g r, wf r -> st r = g -> splates r = [] -> s_event_shape r = shape t ->
    sparents r = map sid outs -> s_stochastic r = false -> gradient_of tname outs (PRaw t) g (r, "grad"%string).
Inductive gradients_of (tname : stensor V -> option string) (outs : list (stensor V)) : list (pyval V) -> list (ten V) -> list (stensor V * string) -> Prop :=
| GS_nil : gradients_of tname outs [] [] []
| GS_cons : forall x xs g gs r rs, gradient_of tname outs x g r -> gradients_of tname outs xs gs rs -> gradients_of tname outs (x :: xs) (g :: gs) (r :: rs).
End Spec.
