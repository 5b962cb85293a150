(** C64, C65 and C66: indexing, storch.cat and storch.gather. *)
From Coq Require Import String List Arith ZArith Lia.
From Verif Require Import Base Torch Plates Wrap TensorFns SpecTensor SpecWrap SpecReduce SpecSample GetitemProofs CatProofs CatProofs2 SpecIndex IndexProofs.
Import ListNotations.
Open Scope nat_scope.
Open Scope list_scope.

(** C64, in part: indices that leave the plates alone, by a ":" for every plate of more than one sample or by starting with "...". For
    every choice of samples the result is the event indexed; if torch raises for a sample, the call raises the same. Missing: other
    indices (below); tensors as indices. *)
Theorem C64_events_partial : forall (V : Type) (veq : V -> V -> bool) anc_unwrap (a : stensor V) items full base,
  callable veq [a] -> leaves_front items full (length (wide (splates a))) (length (s_event_shape a)) ->
  (exists r, getitem veq anc_unwrap a full base = Ok (PT r) /\ splates r = splates a /\ wf r /\ sparents r = [sid a] /\
     forall s, in_range s (splates a) -> exists t, torch_index items (at_sample s a) = Ok t /\ teq t (at_sample s r)) \/
  (exists e, getitem veq anc_unwrap a full base = Err e /\ forall s, torch_index items (at_sample s a) = Err e).
Proof. exact (fun V veq au => @getitem_spec V veq au). Qed.
Print Assumptions C64_events_partial.
(** The same, element by element, with indexing as it is documented instead of the model of torch: negative numbers count from the end, a
    slice keeps the places in its range, None adds a dimension and "..." stands for the dimensions in between. IndexError otherwise. *)
Theorem C64_elements_partial : forall (V : Type) (veq : V -> V -> bool) anc_unwrap (a : stensor V) items full base,
  callable veq [a] -> leaves_front items full (length (wide (splates a))) (length (s_event_shape a)) ->
  (forall evc, indexed false items (s_event_shape a) evc -> exists r, getitem veq anc_unwrap a full base = Ok (PT r) /\ splates r = splates a /\ wf r /\ sparents r = [sid a] /\ s_event_shape r = evc /\
     forall s e, in_range s (splates a) -> valid e evc -> exists j, picks false items (s_event_shape a) e j /\ (forall j', picks false items (s_event_shape a) e j' -> j' = j) /\ den r s e = den a s j) /\
  ((forall evc, ~ indexed false items (s_event_shape a) evc) -> getitem veq anc_unwrap a full base = Err IndexError).
Proof. exact (fun V veq au => @getitem_elements V veq au). Qed.
Print Assumptions C64_elements_partial.

(** C64 is false for x[i]: it selects a sample of the first plate but keeps that plate. This raises ValueError, unless the event
    happens to begin with as many rows as there are samples: then the rows of sample i are silently taken for the samples. *)
Theorem C64_number_refuted : forall (V : Type) (veq : V -> V -> bool) anc_unwrap (a : stensor V) i base p ps,
  callable veq [a] -> wide (splates a) = p :: ps -> i < pn p ->
  let call := getitem veq anc_unwrap a [IInt (Z.of_nat i)] base in
  ((forall evc, map pn ps ++ s_event_shape a <> pn p :: map pn ps ++ evc) -> call = Err ValueError) /\
  (forall evc, ps = [] -> s_event_shape a = pn p :: evc -> exists r, call = Ok (PT r) /\ splates r = splates a /\ s_event_shape r = evc /\
     forall s e, in_range s (splates a) -> valid e evc -> den r s e = den a (set_to s (pname p) i) (s (pname p) :: e)).
Proof. exact (fun V veq au => @getitem_number V veq au). Qed.
Print Assumptions C64_number_refuted.

(** C65, in part: a dimension counted from the end, or counted from the beginning of the event with the number of collected plates of more
    than one sample added. For every choice of samples the events are concatenated; if torch raises, the call raises the same. Missing:
    dimensions as torch counts them in the event (below) and torch tensors in the list. *)
Theorem C65_events_partial : forall (V : Type) (veq : V -> V -> bool) anc_unwrap (ts : list (stensor V)) z zs base, ts <> [] -> callable veq ts ->
  let M := max_event ts in let k := length (wide (all_plates ts)) in
  (zs = z /\ (- Z.of_nat M <= z < 0)%Z) \/ ((0 <= zs)%Z /\ z = (Z.of_nat k + zs)%Z) ->
  (exists r, st_cat veq anc_unwrap (map PT ts) z base = Ok (PT r) /\ splates r = all_plates ts /\ wf r /\ sparents r = map sid ts /\
     forall s, in_range s (all_plates ts) -> exists t, torch_cat (map (slice M s) ts) zs = Ok t /\ teq t (at_sample s r)) \/
  (exists e, st_cat veq anc_unwrap (map PT ts) z base = Err e /\ forall s, torch_cat (map (slice M s) ts) zs = Err e).
Proof. exact (fun V veq au => @cat_spec V veq au). Qed.
Print Assumptions C65_events_partial.

(** C65 is false for the dimensions before: with dim=0 and a plate of more than one sample, at least two tensors cannot be concatenated. *)
Theorem C65_plate_refuted : forall (V : Type) (veq : V -> V -> bool) anc_unwrap (ts : list (stensor V)) z base ev, 2 <= length ts -> callable veq ts ->
  let k := length (wide (all_plates ts)) in (0 <= z < Z.of_nat k)%Z -> (forall a, In a ts -> s_event_shape a = ev) ->
  st_cat veq anc_unwrap (map PT ts) z base = Err ValueError.
Proof. exact (fun V veq au => @cat_plate V veq au). Qed.
Print Assumptions C65_plate_refuted.

(** Nothing cannot be concatenated. *)
Theorem C65_none : forall (V : Type) (veq : V -> V -> bool) anc_unwrap z base, st_cat veq anc_unwrap [] z base = Err RuntimeError.
Proof. reflexivity. Qed.
Print Assumptions C65_none.
(** Neither can numbers among torch tensors. *)
Theorem C65_numbers : forall (V : Type) (veq : V -> V -> bool) anc_unwrap (a b : list (ten V)) n z base,
  st_cat veq anc_unwrap (map PRaw a ++ PInt n :: map PRaw b) z base = Err TypeError.
Proof. exact (fun V veq au => @cat_numbers V veq au). Qed.
Print Assumptions C65_numbers.

(** C66, for plates of more than one sample: every choice of samples picks the sample that the index holds for it, and the call raises
    exactly if the index does not fit. *)
Theorem C66_gather_partial : forall (V : Type) (veq : V -> V -> bool) anc_unwrap (toi : V -> nat) (x ix : stensor V) d base,
  callable veq [x; ix] -> d <> ""%string -> In d (map pname (wide (all_plates [x; ix]))) ->
  let M := Nat.max (s_event_dims x) (s_event_dims ix) in let ps := all_plates [x; ix] in
  let fits := Forall2 le (pad M (s_event_shape ix)) (pad M (s_event_shape x)) in
  let bounded := forall s e p, in_range s ps -> valid e (pad M (s_event_shape ix)) -> In p ps -> pname p = d -> toi (el (slice M s ix) e) < pn p in
  (fits -> bounded -> exists r, st_gather veq anc_unwrap toi x d ix base = Ok (PT r) /\ splates r = ps /\ s_event_shape r = pad M (s_event_shape ix) /\ wf r /\
     sparents r = [sid x; sid ix] /\
     forall s e, in_range s ps -> valid e (pad M (s_event_shape ix)) -> den r s e = el (slice M (set_to s d (toi (el (slice M s ix) e))) x) e) /\
  (~ (fits /\ bounded) -> st_gather veq anc_unwrap toi x d ix base = Err RuntimeError).
Proof. exact (fun V veq au toi => @gather_spec V veq au toi). Qed.
Print Assumptions C66_gather_partial.

(** C66 is false for a plate with a single sample, which has no dimension: UnboundLocalError. *)
Theorem C66_single_refuted : forall (V : Type) (veq : V -> V -> bool) anc_unwrap (toi : V -> nat) (x ix : stensor V) p base,
  callable veq [x; ix] -> In p (all_plates [x; ix]) -> pn p = 1 -> pname p <> ""%string ->
  st_gather veq anc_unwrap toi x (pname p) ix base = Err UnboundLocalError.
Proof. exact (fun V veq au toi => @gather_one V veq au toi). Qed.
Print Assumptions C66_single_refuted.

Section Witness.
Let no_anc : plate nat -> stensor nat -> res (stensor nat) := fun _ _ => Err NotImplementedError.
Let digits (l : list nat) : nat := fold_left (fun n i => 2 * n + i) l 1.
Let px : plate nat := mkPlate PlainPlate "x" 2 (WTorch (tscalar 1)) [].
Let py : plate nat := mkPlate PlainPlate "y" 3 (WTorch (tscalar 1)) [].
Ltac callable_tac := split; [repeat constructor; cbn; try (intros p Hp; intuition (subst; cbn; lia)); intuition congruence|
  split; [intros p q Hp Hq E; cbn in Hp, Hq; intuition (subst; cbn in *; try discriminate; auto)|intros p Hp; cbn in Hp; intuition (subst; reflexivity)]].
Let ma : stensor nat := mkS 1 (mkten [2; 3; 2] digits) [px] 1 [3; 2] [] false.
Let mb : stensor nat := mkS 2 (mkten [3; 1; 2] digits) [py] 1 [1; 2] [] false.
Let sq : stensor nat := mkS 1 (mkten [2; 2; 3] digits) [px] 1 [2; 3] [] false.

(** The last column of the event; the first row, with a new dimension. *)
Example C64_witness : callable Nat.eqb [ma] /\ leaves_front [IEllipsis; IInt (-1)] [IEllipsis; IInt (-1)] 1 2 /\ leaves_front [IRange 0 1; INone] [IAll; IRange 0 1; INone] 1 2 /\
  (exists r, getitem Nat.eqb no_anc ma [IEllipsis; IInt (-1)] 50 = Ok (PT r) /\ shape (st r) = [2; 3] /\ el (st r) [1; 2] = digits [1; 2; 1]) /\
  (exists r, getitem Nat.eqb no_anc ma [IAll; IRange 0 1; INone] 50 = Ok (PT r) /\ shape (st r) = [2; 1; 1; 2]) /\
  getitem Nat.eqb no_anc ma [IEllipsis; IInt 2] 50 = Err IndexError.
Proof.
  split; [callable_tac|]. split; [right; split; auto; exists [IInt (-1)]; split; auto; cbn; lia|]. split; [left; reflexivity|].
  split; [eexists; split; [reflexivity|]; split; vm_compute; reflexivity|]. split; [eexists; split; reflexivity|reflexivity].
Qed.
(** x[..., 1:3, -1]: rows 1 and 2 of the last column of the event of shape [3; 2]. *)
Example C64_elements_witness : leaves_front [IEllipsis; IRange 1 3; IInt (-1)] [IEllipsis; IRange 1 3; IInt (-1)] 1 2 /\
  indexed false [IEllipsis; IRange 1 3; IInt (-1)] [3; 2] [2] /\ picks false [IEllipsis; IRange 1 3; IInt (-1)] [3; 2] [1] [2; 1] /\
  (forall evc, ~ indexed false [IEllipsis; IInt 2] [3; 2] evc) /\
  exists r, getitem Nat.eqb no_anc ma [IEllipsis; IRange 1 3; IInt (-1)] 50 = Ok (PT r) /\ shape (st r) = [2; 2] /\ el (st r) [1; 1] = digits [1; 2; 1].
Proof.
  split; [right; split; auto; exists [IRange 1 3; IInt (-1)]; split; auto; cbn; lia|].
  split; [apply (ix_dots [] _ [3; 2] [2]); apply ix_range; [intros; lia|]; apply (ix_int _ _ 1); [split; lia|]; constructor|].
  split; [apply (pk_dots [] _ [3; 2] [] [1] [2; 1]); [constructor|]; apply (pk_range _ 1 3 _ 3 _ 1 [] [1]); [lia|lia|]; apply (pk_int _ _ 1); [split; lia|]; constructor|].
  split; [|eexists; split; [reflexivity|]; split; vm_compute; reflexivity].
  intros evc H. inversion H; subst. match goal with X : indexed true _ _ _ |- _ => inversion X; subst; match goal with Y : indexed true [] _ _ |- _ => inversion Y; subst end end.
  match goal with X : q ++ _ = _ |- _ => destruct q as [|? [|? [|]]]; cbn in X; try discriminate; injection X; intros; subst end.
  match goal with X : names_place _ _ _ |- _ => destruct X; lia end.
Qed.
Example C64_number_witness : callable Nat.eqb [ma] /\ wide (splates ma) = [px] /\ getitem Nat.eqb no_anc ma [IInt 1] 50 = Err ValueError /\
  callable Nat.eqb [sq] /\ s_event_shape sq = pn px :: [3] /\ exists r, getitem Nat.eqb no_anc sq [IInt 1] 50 = Ok (PT r) /\ splates r = [px] /\ el (st r) [0; 2] = digits [1; 0; 2].
Proof. split; [callable_tac|]. split; [reflexivity|]. split; [reflexivity|]. split; [callable_tac|]. split; [reflexivity|]. eexists. split; [reflexivity|]. split; vm_compute; reflexivity. Qed.
(** Three rows per sample of x and one per sample of y. *)
Example C65_witness : callable Nat.eqb [ma; mb] /\ exists r, st_cat Nat.eqb no_anc [PT ma; PT mb] (-2) 50 = Ok (PT r) /\ splates r = [px; py] /\ shape (st r) = [2; 3; 4; 2] /\
  el (st r) [1; 2; 1; 1] = digits [1; 1; 1] /\ el (st r) [1; 2; 3; 1] = digits [2; 0; 1] /\ st_cat Nat.eqb no_anc [PT ma; PT mb] (-1) 50 = Err RuntimeError.
Proof. split; [callable_tac|]. eexists. split; [reflexivity|]. split; [reflexivity|]. split; [reflexivity|]. split; [vm_compute; reflexivity|]. split; vm_compute; reflexivity. Qed.
Example C65_plate_witness : callable Nat.eqb [ma; ma] /\ st_cat Nat.eqb no_anc [PT ma; PT ma] 0 50 = Err ValueError.
Proof. split; [callable_tac|reflexivity]. Qed.
(** Both samples of x replaced by the sample numbered in the index, which depends on the sample of y. *)
Let ga : stensor nat := mkS 1 (mkten [2] (fun l => 7 + nth 0 l 0)) [px] 1 [] [] false.
Let gi : stensor nat := mkS 2 (mkten [3] (fun l => nth 0 l 0 - 1)) [py] 1 [] [] false.
Example C66_witness : callable Nat.eqb [ga; gi] /\ (forall s e p, in_range s [px; py] -> valid e [] -> In p [px; py] -> pname p = "x"%string -> den gi s e < pn p) /\
  exists r, st_gather Nat.eqb no_anc (fun n => n) ga "x" gi 50 = Ok (PT r) /\ splates r = [px; py] /\ el (st r) [0; 2] = 8 /\ el (st r) [1; 1] = 7.
Proof.
  split; [callable_tac|]. split; [|eexists; split; [reflexivity|]; split; [reflexivity|]; split; vm_compute; reflexivity].
  intros s e p Hs He Hp Hn. inversion He; subst. pose proof (Hs py ltac:(simpl; auto)) as H. destruct Hp as [<-|[<-|[]]]; [|discriminate]. cbn in H |- *. lia.
Qed.
Let p1 : plate nat := mkPlate PlainPlate "z" 1 (WTorch (tscalar 1)) [].
Let g1 : stensor nat := mkS 1 (tscalar 7) [p1] 0 [] [] false.
Example C66_single_witness : callable Nat.eqb [g1; g1] /\ st_gather Nat.eqb no_anc (fun n => n) g1 "z" g1 50 = Err UnboundLocalError.
Proof. split; [callable_tac|reflexivity]. Qed.
End Witness.
