(** Concatenating what is not a tensor (C65). *)
From Coq Require Import String List Arith Bool ZArith Lia.
From Verif Require Import Base Torch Plates Wrap TensorFns SpecTensor SpecWrap CallProofs2.
Import ListNotations.
Section Cat.
Context {V : Type}.
Variable veq : V -> V -> bool.
Variable anc_unwrap : plate V -> stensor V -> res (stensor V).
Lemma cat_numbers : forall (a b : list (ten V)) n z base, st_cat veq anc_unwrap (map PRaw a ++ PInt n :: map PRaw b) z base = Err TypeError.
Proof.
  intros a b n z base. unfold st_cat. rewrite no_tensor_call; try reflexivity.
  - cbn [cat_fn]. assert (E : raws (map PRaw a ++ PInt n :: map PRaw b) = None) by (induction a as [|t a IH]; cbn; [reflexivity|now rewrite IH]). now rewrite E.
  - unfold call_tensors. cbn [flat_map]. rewrite !app_nil_r. cbn [tensors_in]. induction a as [|t a IH]; cbn; [|exact IH]. induction b as [|t b IH]; cbn; [reflexivity|exact IH].
  - constructor; [|constructor]. cbn [no_distr]. induction a as [|t a IH]; cbn; [|tauto]. split; [exact I|]. induction b as [|t b IH]; cbn; tauto.
  - constructor.
Qed.
End Cat.
