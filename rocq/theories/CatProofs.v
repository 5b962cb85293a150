(** Proofs about storch.cat and storch.gather. *)
From Coq Require Import String List Arith Bool ZArith Lia.
From Verif Require Import Base Torch Plates Wrap Ancestral TensorFns SpecTensor SpecWrap SpecReduce SpecSample ListLemmas IndexLemmas WrapProofs PlateEqProofs AlignProofs CallProofs CallProofs2 OpProofs CallN CallV SharedProofs AncestralProofs2.
Import ListNotations.
Open Scope nat_scope.
Open Scope list_scope.

Lemma set_at_front : forall (x : list nat) j v e, set_at (length x + j) v (x ++ e) = x ++ set_at j v e.
Proof.
  intros x j v e. unfold set_at. rewrite firstn_app_2. rewrite <- app_assoc. f_equal. f_equal. f_equal.
  rewrite skipn_app, skipn_all2 by lia. cbn [app]. f_equal. lia.
Qed.
Lemma remove_at_front : forall (x : list nat) j e, remove_at (length x + j) (x ++ e) = x ++ remove_at j e.
Proof.
  intros x j e. unfold remove_at. rewrite firstn_app_2. rewrite <- app_assoc. f_equal. f_equal.
  rewrite skipn_app, skipn_all2 by lia. cbn [app]. f_equal. lia.
Qed.
Lemma nth_front : forall (x : list nat) j e d, nth (length x + j) (x ++ e) d = nth j e d.
Proof. intros x j e d. rewrite app_nth2 by lia. f_equal. lia. Qed.
Lemma list_eqb_front : forall x a b, list_eqb (x ++ a) (x ++ b) = list_eqb a b.
Proof. induction x as [|n x IH]; intros a b; cbn [app list_eqb]; auto. now rewrite Nat.eqb_refl, IH. Qed.
Lemma norm_dim_event : forall k M z zs, (zs = z /\ (- Z.of_nat M <= z < 0)%Z) \/ ((0 <= zs)%Z /\ z = (Z.of_nat k + zs)%Z) ->
  norm_dim (k + M) z = match norm_dim M zs with Ok j => Ok (k + j) | Err e => Err e end.
Proof.
  intros k M z zs H. unfold norm_dim. rewrite Nat2Z.inj_add.
  destruct H as [[-> H]|[H ->]].
  - destruct (Z.ltb_spec z 0); [|lia]. destruct (Z.leb_spec 0 (z + (Z.of_nat k + Z.of_nat M))); [|lia]. destruct (Z.leb_spec 0 (z + Z.of_nat M)); [|lia].
    destruct (Z.ltb_spec (z + (Z.of_nat k + Z.of_nat M)) (Z.of_nat k + Z.of_nat M)); [|lia]. destruct (Z.ltb_spec (z + Z.of_nat M) (Z.of_nat M)); [|lia]. cbn [andb]. f_equal. lia.
  - destruct (Z.ltb_spec (Z.of_nat k + zs) 0); [lia|]. destruct (Z.ltb_spec zs 0); [lia|]. destruct (Z.leb_spec 0 (Z.of_nat k + zs)); [|lia]. destruct (Z.leb_spec 0 zs); [|lia].
    destruct (Z.ltb_spec (Z.of_nat k + zs) (Z.of_nat k + Z.of_nat M)), (Z.ltb_spec zs (Z.of_nat M)); try lia; cbn [andb]; auto. f_equal. lia.
Qed.
Lemma norm_dim_lt : forall M z j, norm_dim M z = Ok j -> j < M.
Proof.
  intros M z j. unfold norm_dim. destruct (_ && _)%bool eqn:B; [|discriminate]. intros H. injection H as <-. apply andb_prop in B. destruct B as [B1 B2].
  apply Z.leb_le in B1. apply Z.ltb_lt in B2. lia.
Qed.
Lemma valid_split : forall i l j, j < length l -> (valid i l <-> length i = length l /\ nth j i 0 < nth j l 0 /\ valid (remove_at j i) (remove_at j l)).
Proof.
  induction i as [|x i IH]; intros [|n l] j Hj; simpl in Hj; try lia.
  - split; [intros H; inversion H|intros [H _]; discriminate].
  - destruct j as [|j].
    + unfold remove_at. cbn [firstn skipn app nth length]. split; [intros H; inversion H; subst; split; [now rewrite (valid_length _ _ H5)|auto]|intros [H1 [H2 H3]]; constructor; auto].
    + specialize (IH l j ltac:(lia)). unfold remove_at in *. cbn [nth length]. change (firstn (S j) (x :: i) ++ skipn (S (S j)) (x :: i)) with (x :: firstn j i ++ skipn (S j) i).
      change (firstn (S j) (n :: l) ++ skipn (S (S j)) (n :: l)) with (n :: firstn j l ++ skipn (S j) l). split.
      * intros H. inversion H; subst. destruct IH as [IH _]. destruct (IH H5) as [I1 [I2 I3]]. split; [lia|]. split; auto. constructor; auto.
      * intros [H1 [H2 H3]]. inversion H3; subst. constructor; auto. apply IH. split; [lia|]. auto.
Qed.
Lemma set_at_facts : forall (l : list nat) j v, j < length l -> length (set_at j v l) = length l /\ nth j (set_at j v l) 0 = v /\ remove_at j (set_at j v l) = remove_at j l.
Proof.
  intros l j v Hj. unfold set_at, remove_at. assert (Lf : length (firstn j l) = j) by (rewrite firstn_length; lia). split; [|split].
  - rewrite app_length. cbn [length]. rewrite skipn_length. lia.
  - rewrite app_nth2 by lia. rewrite Lf, Nat.sub_diag. reflexivity.
  - assert (E1 : firstn j (firstn j l ++ v :: skipn (S j) l) = firstn j l) by (rewrite firstn_app, firstn_firstn, Lf, Nat.sub_diag, Nat.min_id, firstn_O, app_nil_r; reflexivity).
    rewrite E1. f_equal. rewrite skipn_app, skipn_all2 by lia. replace (S j - length (firstn j l)) with 1 by lia. reflexivity.
Qed.

(** [u] holds [t] at position [x] of the dimensions [q]. *)
Definition holds {A} (q x : list nat) (t u : ten A) : Prop := shape u = q ++ shape t /\ forall e, valid e (shape t) -> el u (x ++ e) = el t e.
Lemma cat_at_front : forall {A} (q x : list nat) (ts us : list (ten A)) d d' j n e, Forall2 (holds q x) ts us -> length x = length q ->
  Forall (fun t => j < length (shape t) /\ length e = length (shape t) /\ valid (remove_at j e) (remove_at j (shape t))) ts ->
  n < list_sum (map (fun t => nth j (shape t) 0) ts) ->
  cat_at d us (length q + j) n (x ++ e) = cat_at d' ts j n e.
Proof.
  intros A q x ts us d d' j n e F Lx. revert n. induction F as [|t u ts us H F IH]; intros n G Hn; [simpl in Hn; lia|].
  inversion G as [|? ? G1 G2]; subst. destruct H as [H1 H2]. cbn [cat_at]. rewrite H1, nth_front. cbn [map list_sum fold_right] in Hn.
  destruct (Nat.ltb_spec n (nth j (shape t) 0)) as [Lt|Ge].
  - rewrite <- Lx, set_at_front. apply H2. destruct G1 as [G1 [G3 G4]]. destruct (set_at_facts e j n ltac:(lia)) as [S1 [S2 S3]].
    apply (valid_split (set_at j n e) (shape t) j G1). rewrite S1, S2, S3. auto.
  - apply IH; auto. change (fold_right Nat.add 0 (map (fun t => nth j (shape t) 0) ts)) with (list_sum (map (fun t => nth j (shape t) 0) ts)) in Hn. lia.
Qed.
Definition same_rest {A} (j : nat) (t0 t : ten A) : bool := (ndim t =? ndim t0) && list_eqb (remove_at j (shape t)) (remove_at j (shape t0)).
Lemma torch_cat_front : forall {A} (q : list nat) (ts us : list (ten A)) M z zs, ts <> [] ->
  Forall2 (fun t u => shape u = q ++ shape t) ts us -> Forall (fun t => length (shape t) = M) ts ->
  (zs = z /\ (- Z.of_nat M <= z < 0)%Z) \/ ((0 <= zs)%Z /\ z = (Z.of_nat (length q) + zs)%Z) ->
  match torch_cat ts zs with
  | Ok t => exists u, torch_cat us z = Ok u /\ shape u = q ++ shape t /\ forall x e, length x = length q -> Forall2 (holds q x) ts us -> valid e (shape t) -> el u (x ++ e) = el t e
  | Err e => torch_cat us z = Err e
  end.
Proof.
  intros A q ts us M z zs Hne F HM Hz. destruct ts as [|t0 ts]; [congruence|]. inversion F as [|? u0 ? us' F1 F2]; subst.
  inversion HM as [|? ? M1 M2]; subst. set (M := length (shape t0)) in *. set (tt := t0 :: ts) in *. set (uu := u0 :: us') in *.
  unfold torch_cat. subst tt uu. cbv iota. assert (N0 : ndim u0 = length q + M) by (unfold ndim; rewrite F1, app_length; reflexivity).
  replace (norm_dim (ndim u0) z) with (norm_dim (length q + M) z) by now rewrite N0. rewrite (norm_dim_event (length q) M z zs Hz). rewrite F1. change (norm_dim (ndim t0) zs) with (norm_dim M zs).
  destruct (norm_dim M zs) as [j|e] eqn:E; cbn [bind]; [|reflexivity]. apply norm_dim_lt in E.
  assert (G : forallb (fun u => (ndim u =? ndim u0) && list_eqb (remove_at (length q + j) (shape u)) (remove_at (length q + j) (q ++ shape t0))) (u0 :: us')
            = forallb (fun t => (ndim t =? ndim t0) && list_eqb (remove_at j (shape t)) (remove_at j (shape t0))) (t0 :: ts)).
  { clear -F F1. induction F as [|t u l l' H F IH]; auto. cbn [forallb]. rewrite IH. f_equal. unfold ndim. rewrite H, F1, !app_length, !remove_at_front, list_eqb_front. f_equal.
    destruct (Nat.eqb_spec (length q + length (shape t)) (length q + length (shape t0))), (Nat.eqb_spec (length (shape t)) (length (shape t0))); auto; lia. }
  rewrite G. destruct (forallb _ (t0 :: ts)) eqn:B; [|reflexivity].
  assert (Sm : map (fun u => nth (length q + j) (shape u) 0) (u0 :: us') = map (fun t => nth j (shape t) 0) (t0 :: ts)).
  { clear -F. induction F as [|t u l l' H F IH]; auto. cbn [map]. rewrite IH, H, nth_front. reflexivity. }
  rewrite Sm. eexists. split; [reflexivity|]. cbn [shape]. split; [apply set_at_front|]. intros x e Lx FH He. cbn [el].
  destruct (set_at_facts (shape t0) j (list_sum (map (fun t => nth j (shape t) 0) (t0 :: ts))) E) as [S1 [S2 S3]].
  apply (proj1 (valid_split e _ j ltac:(rewrite S1; exact E))) in He. rewrite S1, S2, S3 in He. destruct He as [He1 [He2 He3]].
  replace (nth (length q + j) (x ++ e) 0) with (nth j e 0) by (rewrite <- Lx, nth_front; reflexivity).
  apply cat_at_front; auto. rewrite forallb_forall in B. apply Forall_forall. intros t Ht. specialize (B t Ht). apply andb_prop in B. destruct B as [B1 B2].
  apply Nat.eqb_eq in B1. apply list_eqb_eq in B2. unfold ndim in B1. rewrite B1, B2. split; [exact E|]. split; auto.
Qed.

Section CatProofs.
Context {V : Type}.
Variable veq : V -> V -> bool.
Variable anc_unwrap : plate V -> stensor V -> res (stensor V).
Notation plate := (plate V).
Notation stensor := (stensor V).
Notation N l := (map (@pname V) l).

Lemma laid_out_holds : forall ps M (a : stensor) u s, laid_out ps true M a u -> in_range s ps -> holds (map pn ps) (map (fun p => s (pname p)) ps) (slice M s a) u.
Proof.
  intros ps M a u s [S X] Hs. split.
  - rewrite S. cbn [slice shape]. f_equal. apply map_ext. intros p. now rewrite orb_true_r.
  - intros e He. cbn [slice shape el] in *. rewrite <- X by auto. f_equal. f_equal. apply map_ext. intros p. now rewrite orb_true_r.
Qed.
Lemma prepare_cat : forall (ts : list stensor), callable veq ts ->
  exists us, prepare_args veq anc_unwrap [PList (map PT ts)] [] cat_opts = Ok ([PList (map (@PRaw V) us)], [], ts, all_plates ts) /\ Forall2 (laid_out (wide (all_plates ts)) true (max_event ts)) ts us.
Proof.
  intros ts HC. destruct (prepare_args_laid_out veq anc_unwrap [PList (map PT ts)] [] cat_opts ts) as [args' [kwargs' [E [F1 F2]]]]; auto.
  { unfold call_tensors. cbn [flat_map tensors_in]. rewrite !app_nil_r. clear. induction ts; simpl; congruence. }
  { constructor; auto. cbn. clear. induction ts; simpl; auto. }
  inversion F2; subst kwargs'. inversion F1 as [|? x ? r U F]; subst. inversion F; subst. inversion U as [| | | | |? l' FL| | | ]; subst.
  destruct (CallN.unwrapped_list _ _ _ FL) as [us [-> G]]. exists us. split; [exact E|exact G].
Qed.

Theorem cat_spec : forall (ts : list stensor) z zs base, ts <> [] -> callable veq ts ->
  let M := max_event ts in let k := length (wide (all_plates ts)) in
  (zs = z /\ (- Z.of_nat M <= z < 0)%Z) \/ ((0 <= zs)%Z /\ z = (Z.of_nat k + zs)%Z) ->
  (exists r, st_cat veq anc_unwrap (map PT ts) z base = Ok (PT r) /\ splates r = all_plates ts /\ wf r /\ sparents r = map sid ts /\
     forall s, in_range s (all_plates ts) -> exists t, torch_cat (map (slice M s) ts) zs = Ok t /\ teq t (at_sample s r)) \/
  (exists e, st_cat veq anc_unwrap (map PT ts) z base = Err e /\ forall s, torch_cat (map (slice M s) ts) zs = Err e).
Proof.
  intros ts z zs base Hne HC M k Hz. destruct (prepare_cat ts HC) as [us [E F]]. fold M in F. set (ps := wide (all_plates ts)) in *.
  destruct (call_done veq anc_unwrap (cat_fn z) _ _ _ _ ts cat_opts base Hne HC eq_refl E) as [K1 [K2 _]].
  fold (st_cat veq anc_unwrap (map PT ts) z base) in K1, K2. fold ps in K2. cbn [cat_fn] in K1, K2. rewrite raws_map in K1, K2.
  assert (Fs : forall s, Forall2 (fun t u => shape u = map pn ps ++ shape t) (map (slice M s) ts) us).
  { intros s. clear -F. clearbody M. clearbody ps. induction F as [|a u l l' H F IH]; cbn [map]; constructor; auto. destruct H as [S _]. rewrite S. cbn [slice shape]. f_equal. apply map_ext. intros p. now rewrite orb_true_r. }
  assert (FM : forall s, Forall (fun t => length (shape t) = M) (map (slice M s) ts)).
  { intros s. apply Forall_forall. intros t Ht. apply in_map_iff in Ht. destruct Ht as [a [<- Ha]]. cbn [slice shape]. apply pad_length. apply max_event_ge. auto. }
  assert (Hn : forall s, map (slice M s) ts <> []) by (intros s; destruct ts; [congruence|discriminate]).
  assert (T : forall s, _) by (intros s; exact (torch_cat_front (map pn ps) (map (slice M s) ts) us M z zs (Hn s) (Fs s) (FM s) ltac:(rewrite map_length; exact Hz))).
  assert (Sh : forall s s', match torch_cat (map (slice M s) ts) zs, torch_cat (map (slice M s') ts) zs with Ok t, Ok t' => shape t = shape t' | Err e, Err e' => e = e' | _, _ => False end).
  { intros s s'. pose proof (T s) as T1. pose proof (T s') as T2. destruct (torch_cat (map (slice M s) ts) zs) as [t|e], (torch_cat (map (slice M s') ts) zs) as [t'|e'].
    - destruct T1 as [u [U1 [U2 _]]], T2 as [u' [U1' [U2' _]]]. rewrite U1 in U1'. injection U1' as <-. rewrite U2 in U2'. now apply app_inv_head in U2'.
    - destruct T1 as [u [U1 _]]. congruence.
    - destruct T2 as [u [U1 _]]. congruence.
    - congruence. }
  pose proof (T (fun _ => 0)) as T0. destruct (torch_cat (map (slice M (fun _ => 0)) ts) zs) as [t0|e] eqn:E0.
  - left. destruct T0 as [u [U1 [U2 _]]]. destruct (K2 u (shape t0)) as [r [R1 [R2 [R3 [R4 [R5 [R6 R7]]]]]]]; [rewrite U1; reflexivity|exact U2|].
    exists r. split; [exact R1|]. split; [exact R2|]. split; [exact R5|]. split; [exact R6|]. intros s Hs.
    pose proof (T s) as Ts. pose proof (Sh (fun _ => 0) s) as Ss. rewrite E0 in Ss. destruct (torch_cat (map (slice M s) ts) zs) as [t|e]; [|destruct Ss].
    exists t. split; auto. destruct Ts as [u' [U1' [U2' U3']]]. rewrite U1 in U1'. injection U1' as <-.
    split; [cbn [at_sample shape]; congruence|]. intros e He. cbn [at_sample el]. unfold den. rewrite R3, R2. fold ps. symmetry. apply U3'; auto; [now rewrite !map_length|].
    assert (Hs' : in_range s ps) by now apply in_range_wide_all. clear -F Hs'. clearbody M. clearbody ps. induction F as [|a u l l' H F IH]; cbn [map]; constructor; auto. now apply laid_out_holds.
  - right. exists e. split; [apply K1; rewrite T0; reflexivity|]. intros s. pose proof (Sh (fun _ => 0) s) as Ss. rewrite E0 in Ss.
    destruct (torch_cat (map (slice M s) ts) zs); [destruct Ss|congruence].
Qed.

(** A dimension of a plate: never accepted. *)
Theorem cat_plate : forall (ts : list stensor) z base ev, 2 <= length ts -> callable veq ts ->
  let k := length (wide (all_plates ts)) in (0 <= z < Z.of_nat k)%Z -> (forall a, In a ts -> s_event_shape a = ev) ->
  st_cat veq anc_unwrap (map PT ts) z base = Err ValueError.
Proof.
  intros ts z base ev H2 HC k Hz Hev. assert (Hne : ts <> []) by (intros ->; simpl in H2; lia). destruct (prepare_cat ts HC) as [us [E F]].
  set (M := max_event ts) in *. set (ps := wide (all_plates ts)) in *.
  destruct (call_done veq anc_unwrap (cat_fn z) _ _ _ _ ts cat_opts base Hne HC eq_refl E) as [_ [_ [K3 _]]].
  fold (st_cat veq anc_unwrap (map PT ts) z base) in K3. fold ps in K3. cbn [cat_fn] in K3. rewrite raws_map in K3.
  assert (Fs : Forall (fun u => shape u = map pn ps ++ pad M ev) us).
  { assert (G : forall a, In a ts -> s_event_shape a = ev) by auto. clear -F G. clearbody M. clearbody ps. revert G. induction F as [|a u l l' H F IH]; intros G; constructor.
    - destruct H as [S _]. rewrite S, (G a) by (simpl; auto). f_equal. apply map_ext. intros p. now rewrite orb_true_r.
    - apply IH. intros b Hb. apply G. simpl; auto. }
  assert (Lu : 2 <= length us) by (replace (length us) with (length ts); [exact H2|clear -F; clearbody M; clearbody ps; induction F; simpl; congruence]).
  destruct us as [|u0 us]; [simpl in Lu; lia|]. pose proof (Forall_inv Fs) as S0.
  assert (Hps : forall p, In p ps -> 1 < pn p) by (intros p Hp; apply In_wide in Hp; tauto).
  set (d := Z.to_nat z). assert (Hd : d < length ps) by (unfold d; lia).
  assert (T : torch_cat (u0 :: us) z = Ok (mkten (set_at d (list_sum (map (fun u => nth d (shape u) 0) (u0 :: us))) (shape u0)) (fun i => cat_at (el u0 i) (u0 :: us) d (nth d i 0) i))).
  { unfold torch_cat. unfold norm_dim. destruct (Z.ltb_spec z 0); [lia|]. destruct (Z.leb_spec 0 z); [|lia].
    destruct (Z.ltb_spec z (Z.of_nat (ndim u0))) as [_|X]; [|unfold ndim in X; rewrite S0, app_length, map_length in X; lia]. cbn [andb bind]. fold d.
    replace (forallb _ (u0 :: us)) with true; auto. symmetry. apply forallb_forall. intros u Hu. rewrite Forall_forall in Fs. unfold ndim. rewrite (Fs u Hu), S0, Nat.eqb_refl. cbn [andb]. apply list_eqb_eq. reflexivity. }
  apply (K3 _ ltac:(rewrite T; reflexivity)). intros evc Hc. cbn [shape] in Hc.
  assert (A1 : nth d (set_at d (list_sum (map (fun u => nth d (shape u) 0) (u0 :: us))) (shape u0)) 0 = list_sum (map (fun u => nth d (shape u) 0) (u0 :: us))).
  { apply set_at_facts. rewrite S0, app_length, map_length. lia. }
  rewrite Hc in A1. rewrite app_nth1 in A1 by (rewrite map_length; exact Hd).
  assert (Hn : forall u, In u (u0 :: us) -> nth d (shape u) 0 = nth d (map pn ps) 0) by (intros u Hu; rewrite Forall_forall in Fs; rewrite (Fs u Hu); apply app_nth1; rewrite map_length; exact Hd).
  assert (P : 1 < nth d (map pn ps) 0). { assert (I : In (nth d (map pn ps) 0) (map pn ps)) by (apply nth_In; rewrite map_length; exact Hd). apply in_map_iff in I. destruct I as [p [<- Hp]]. auto. }
  destruct us as [|u1 us]; [simpl in Lu; lia|]. cbn [map list_sum fold_right] in A1. rewrite (Hn u0) in A1 by (simpl; auto). rewrite (Hn u1) in A1 by (simpl; auto). lia.
Qed.
End CatProofs.

Section GatherProofs.
Context {V : Type}.
Variable veq : V -> V -> bool.
Variable anc_unwrap : plate V -> stensor V -> res (stensor V).
Variable toi : V -> nat.
Notation plate := (plate V).
Notation stensor := (stensor V).
Notation N l := (map (@pname V) l).

Lemma fits_front : forall l1 l2 n a b, length a = length b ->
  gather_fits (length l1) (l1 ++ n :: l2 ++ a) (l1 ++ n :: l2 ++ b) = forallb (fun p => snd p <=? fst p) (combine a b).
Proof.
  intros l1 l2 n a b L. unfold gather_fits. rewrite !remove_at_app. rewrite !app_length. cbn [length]. rewrite !app_length, L, Nat.eqb_refl. cbn [andb].
  assert (R : forall q, forallb (fun p => snd p <=? fst p) (combine (q ++ a) (q ++ b)) = forallb (fun p => snd p <=? fst p) (combine a b)).
  { induction q as [|x q IH]; auto. cbn [app combine forallb fst snd]. now rewrite Nat.leb_refl, IH. }
  rewrite !app_assoc. apply R.
Qed.
Lemma choice_set : forall (ps l1 l2 : list plate) p s v, NoDup (N ps) -> ps = l1 ++ p :: l2 ->
  map (fun q => set_to s (pname p) v (pname q)) ps = map (fun q => s (pname q)) l1 ++ v :: map (fun q => s (pname q)) l2.
Proof.
  intros ps l1 l2 p s v ND ->. rewrite map_app. cbn [map]. unfold set_to at 2. rewrite String.eqb_refl. rewrite map_app in ND. cbn [map] in ND.
  assert (G : forall l : list plate, (forall q, In q l -> pname q <> pname p) -> map (fun q => set_to s (pname p) v (pname q)) l = map (fun q => s (pname q)) l).
  { intros l H. apply map_ext_in. intros q Hq. unfold set_to. destruct (String.eqb_spec (pname q) (pname p)); auto. exfalso. eapply H; eauto. }
  pose proof (NoDup_remove_2 _ _ _ ND) as NI. f_equal; [|f_equal]; apply G; intros q Hq C; apply NI; rewrite <- C; apply in_app_iff; [left|right]; now apply in_map.
Qed.

Lemma valid_le : forall a b, Forall2 le a b -> forall e, valid e a -> valid e b.
Proof. intros a b H. induction H as [|y z a b H F IH]; intros e He; inversion He; subst; constructor; [lia|]. now apply IH. Qed.
Lemma choice_exists : forall (ps : list plate) j, NoDup (N ps) -> (forall p, In p ps -> 1 <= pn p) -> valid j (map pn (wide ps)) ->
  exists s : assignment, in_range s ps /\ j = map (fun p => s (pname p)) (wide ps).
Proof.
  induction ps as [|p ps IH]; intros j ND Hp Vj.
  - inversion Vj; subst. exists (fun _ => 0). split; auto; intros q [].
  - cbn [map] in ND. inversion ND as [|? ? NI ND']; subst.
    assert (U : forall s v l, incl l ps -> map (fun q => set_to s (pname p) v (pname q)) l = map (fun q => s (pname q)) l).
    { intros s v l Hl. apply map_ext_in. intros q Hq. unfold set_to. destruct (String.eqb_spec (pname q) (pname p)) as [C|]; auto. exfalso. apply NI. rewrite <- C. apply in_map. auto. }
    assert (W : incl (wide ps) ps) by (intros q Hq; apply In_wide in Hq; tauto).
    assert (G : forall s v, in_range s ps -> v < pn p -> in_range (set_to s (pname p) v) (p :: ps)).
    { intros s v Hs Hv q [<-|Hq]; unfold set_to; [now rewrite String.eqb_refl|]. destruct (String.eqb_spec (pname q) (pname p)) as [C|]; [|now apply Hs].
      exfalso. apply NI. rewrite <- C. now apply in_map. }
    unfold wide in Vj |- *. cbn [filter] in Vj |- *. fold (wide ps) in Vj |- *.
    match goal with |- context [if ?b then _ else _] => destruct b eqn:B end.
    + cbn [map] in Vj |- *. inversion Vj; subst. destruct (IH _ ND' ltac:(intros q Hq; apply Hp; simpl; auto) H3) as [s [Hs E]].
      exists (set_to s (pname p) x). split; [now apply G|]. rewrite U by exact W. rewrite <- E. unfold set_to at 1. now rewrite String.eqb_refl.
    + destruct (IH _ ND' ltac:(intros q Hq; apply Hp; simpl; auto) Vj) as [s [Hs E]]. exists (set_to s (pname p) 0). split; [apply G; auto; apply (Hp p); simpl; auto|]. now rewrite U.
Qed.

(** Gathering along a plate picks, for every choice of samples, the sample that the index holds there. *)
Theorem gather_spec : forall (x ix : stensor) d base, callable veq [x; ix] -> d <> ""%string -> In d (N (wide (all_plates [x; ix]))) ->
  let M := Nat.max (s_event_dims x) (s_event_dims ix) in let ps := all_plates [x; ix] in
  let fits := Forall2 le (pad M (s_event_shape ix)) (pad M (s_event_shape x)) in
  let bounded := forall s e p, in_range s ps -> valid e (pad M (s_event_shape ix)) -> In p ps -> pname p = d -> toi (el (slice M s ix) e) < pn p in
  (fits -> bounded -> exists r, st_gather veq anc_unwrap toi x d ix base = Ok (PT r) /\ splates r = ps /\ s_event_shape r = pad M (s_event_shape ix) /\ wf r /\
     sparents r = [sid x; sid ix] /\
     forall s e, in_range s ps -> valid e (pad M (s_event_shape ix)) -> den r s e = el (slice M (set_to s d (toi (el (slice M s ix) e))) x) e) /\
  (~ (fits /\ bounded) -> st_gather veq anc_unwrap toi x d ix base = Err RuntimeError).
Proof.
  intros x ix d base HC Hd Hin M ps fits bounded.
  destruct (dim_selects veq anc_unwrap [PT x] [("index"%string, PT ix)] true d [x; ix]) as [i [p [args' [kwargs' [E [Hi [Hp [F1 F2]]]]]]]]; auto.
  { repeat constructor. } { repeat constructor. } { cbn. intros [C|[]]. discriminate. }
  inversion F1 as [|? y ? r U F1']; subst. inversion F1'; subst. inversion U as [? u1 L1| | | | | | | |]; subst.
  inversion F2 as [|? y ? r U2 F2']; subst. inversion F2'; subst. destruct y as [nm y]. destruct U2 as [Un U2]. cbn [fst snd] in Un, U2. subst nm. inversion U2 as [? u2 L2| | | | | | | |]; subst.
  clear F1 F2 F1' F2' U U2. change (max_event [x; ix]) with (Nat.max (Nat.max 0 (s_event_dims x)) (s_event_dims ix)) in L1, L2. cbn [Nat.max] in L1, L2. rewrite Nat.max_0_l in L1, L2 || idtac. fold M in L1, L2.
  fold ps in E, L1, L2, Hi.
  destruct (call_done veq anc_unwrap (gather_call toi) _ _ _ _ [x; ix] (gather_opts (pname p)) base ltac:(discriminate) HC eq_refl E) as [K1 [K2 _]].
  fold (st_gather veq anc_unwrap toi x (pname p) ix base) in K1, K2. fold ps in K2. cbn [app gather_call] in K1, K2.
  destruct (nth_error_split _ _ Hi) as [l1 [l2 [Eps Ll]]].
  assert (ND : NoDup (N (wide ps))). { destruct (all_plates_facts veq anc_unwrap _ HC) as [_ [D _]]. now apply NoDup_map_filter. }
  assert (Hpin : In p ps). { assert (Z : In p (wide ps)) by (rewrite Eps; apply in_app_iff; simpl; auto). apply In_wide in Z. tauto. }
  assert (NDa : NoDup (N ps)) by (destruct (all_plates_facts veq anc_unwrap _ HC) as [_ [D _]]; exact D).
  assert (Lx : length (pad M (s_event_shape x)) = M) by (apply pad_length; unfold s_event_dims in *; unfold M; lia).
  assert (Li : length (pad M (s_event_shape ix)) = M) by (apply pad_length; unfold s_event_dims in *; unfold M; lia).
  assert (Sx : shape u1 = map pn l1 ++ pn p :: map pn l2 ++ pad M (s_event_shape x)).
  { destruct L1 as [S _]. rewrite S. rewrite Eps. rewrite map_app. cbn [map]. rewrite <- app_assoc. cbn [app]. rewrite orb_true_r. f_equal; [apply map_ext; intros q; now rewrite orb_true_r|]. f_equal. f_equal. apply map_ext; intros q; now rewrite orb_true_r. }
  assert (Si : shape u2 = map pn l1 ++ pn p :: map pn l2 ++ pad M (s_event_shape ix)).
  { destruct L2 as [S _]. rewrite S. rewrite Eps. rewrite map_app. cbn [map]. rewrite <- app_assoc. cbn [app]. rewrite orb_true_r. f_equal; [apply map_ext; intros q; now rewrite orb_true_r|]. f_equal. f_equal. apply map_ext; intros q; now rewrite orb_true_r. }
  assert (Sw : forall l, map pn (wide ps) ++ l = map pn l1 ++ pn p :: map pn l2 ++ l) by (intros l; rewrite Eps, map_app; cbn [map]; now rewrite <- app_assoc).
  assert (Hli : length (map (@pn V) l1) = i) by (rewrite map_length; exact Ll).
  assert (G1 : gather_fits i (shape u1) (shape u2) = true <-> fits).
  { rewrite Sx, Si, <- Hli, fits_front by lia. unfold fits. clear -Lx Li. revert Lx Li. generalize (pad M (s_event_shape x)) (pad M (s_event_shape ix)). generalize M. intros m a. revert m.
    induction a as [|y a IH]; intros m [|z b] La Lb; simpl in La, Lb; subst; try discriminate; [simpl; split; [constructor|auto]|]. injection Lb as Lb. cbn [combine forallb fst snd].
    rewrite andb_true_iff, Nat.leb_le, (IH (length a) b) by auto. split; [intros [H1 H2]; constructor; auto|intros H; inversion H; auto]. }
  assert (G2 : forallb (fun j => toi (el u2 j) <? pn p) (indices (shape u2)) = true <-> bounded).
  { rewrite forallb_forall. split.
    - intros H s e q Hs He Hq Hn. assert (q = p) as -> by (eapply NoDup_map_inj; eauto). destruct (laid_out_holds (wide ps) M ix u2 s L2 (in_range_wide_all _ _ Hs)) as [A B].
      rewrite <- B by exact He. apply Nat.ltb_lt. apply H. apply in_indices. rewrite Si, <- Sw. unfold valid. apply Forall2_app; [apply valid_choice; now apply in_range_wide_all|exact He].
    - intros H j Hj. apply in_indices in Hj. rewrite Si, <- Sw in Hj. apply Forall2_app_inv_r in Hj. destruct Hj as [j1 [j2 [J1 [J2 ->]]]].
      destruct (choice_exists ps j1) as [s [Hs Es]]; [exact NDa|exact (all_pos veq anc_unwrap _ HC)|exact J1|]. subst j1.
      destruct (laid_out_holds (wide ps) M ix u2 s L2 (in_range_wide_all _ _ Hs)) as [A B]. rewrite B by exact J2. apply Nat.ltb_lt. apply (H s j2 p); auto. }
  assert (T : torch_gather toi i u1 u2 = if gather_fits i (shape u1) (shape u2) && forallb (fun j => toi (el u2 j) <? pn p) (indices (shape u2)) then Ok (mkten (shape u2) (fun j => el u1 (set_at i (toi (el u2 j)) j))) else Err RuntimeError).
  { unfold torch_gather. replace (nth_error (shape u1) i) with (Some (pn p)) by (rewrite Sx, <- Hli; symmetry; apply nth_error_mid).
    destruct (gather_fits i (shape u1) (shape u2)); cbn [negb andb]; auto. destruct (forallb _ (indices (shape u2))); reflexivity. }
  split.
  - intros Hf Hb. apply G1 in Hf. pose proof Hb as Hb'. apply G2 in Hb. rewrite Hf, Hb in T. cbn [andb] in T.
    destruct (K2 _ (pad M (s_event_shape ix)) ltac:(rewrite T; reflexivity)) as [r [R1 [R2 [R3 [R4 [R5 [R6 _]]]]]]]; [cbn [shape]; rewrite Sw; exact Si|].
    exists r. split; [exact R1|]. split; [exact R2|]. split; [exact R4|]. split; [exact R5|]. split; [exact R6|]. intros s e Hs He. unfold den. rewrite R3, R2. fold ps. cbn [el].
    destruct (laid_out_holds (wide ps) M ix u2 s L2 (in_range_wide_all _ _ Hs)) as [_ B]. rewrite B by exact He. set (v := toi (el (slice M s ix) e)).
    assert (Hv : v < pn p) by (apply (Hb' s e p); auto).
    assert (Hs2 : in_range (set_to s (pname p) v) ps).
    { intros q Hq. unfold set_to. destruct (String.eqb_spec (pname q) (pname p)) as [En|]; [|now apply Hs]. assert (q = p) as -> by (eapply NoDup_map_inj; eauto). exact Hv. }
    destruct (laid_out_holds (wide ps) M x u1 _ L1 (in_range_wide_all _ _ Hs2)) as [_ B2]. rewrite <- B2.
    + f_equal. rewrite (choice_set (wide ps) l1 l2 p s v ND Eps). rewrite Eps, map_app. cbn [map]. rewrite <- !app_assoc. cbn [app]. rewrite <- Hli. replace (length (map pn l1)) with (length (map (fun q => s (pname q)) l1)) by now rewrite !map_length.
      rewrite set_at_app by reflexivity. reflexivity.
    + cbn [slice shape]. apply G1 in Hf. exact (valid_le _ _ Hf e He).
  - intros Hn. apply K1. rewrite T. destruct (gather_fits i (shape u1) (shape u2)) eqn:A, (forallb _ (indices (shape u2))) eqn:B; try reflexivity. exfalso. apply Hn. split; [now apply G1|now apply G2].
Qed.

(** A plate with a single sample cannot be gathered from. *)
Theorem gather_single : forall (x ix : stensor) d base, callable veq [x; ix] -> d <> ""%string -> ~ In d (N (wide (all_plates [x; ix]))) ->
  st_gather veq anc_unwrap toi x d ix base = Err UnboundLocalError.
Proof.
  intros x ix d base HC Hd Hni. unfold st_gather, handle_deterministic. cbn [top_ctx c_stochastic].
  rewrite (dim_missing veq anc_unwrap [PT x] [("index"%string, PT ix)] (gather_opts d) d); auto.
Qed.
Theorem gather_one : forall (x ix : stensor) (p : plate) base, callable veq [x; ix] -> In p (all_plates [x; ix]) -> pn p = 1 -> pname p <> ""%string ->
  st_gather veq anc_unwrap toi x (pname p) ix base = Err UnboundLocalError.
Proof.
  intros x ix p base HC Hp H1 Hn. apply gather_single; auto. intros Hin. apply in_map_iff in Hin. destruct Hin as [q [En Hq]]. apply In_wide in Hq. destruct Hq as [Hq Hw].
  destruct (all_plates_facts veq anc_unwrap _ HC) as [_ [D _]]. assert (q = p) as -> by (eapply NoDup_map_inj; eauto). lia.
Qed.
End GatherProofs.
