(** Specification vocabulary for sampling programs: what is random, and expectations. Every sum is finite; the numbers may
    depend on parameters (dual numbers, curves), so an expectation is a number that depends on the parameters too. *)
From Coq Require Import String List Arith Bool Lia.
From Verif Require Import Base Torch Plates Scalar SpecTensor SpecReduce.
Import ListNotations.

Section Spec.
Context {V X : Type}.
Notation plate := (plate V).

(** The value of every variable on one path through the program: one sample of every variable. *)
Definition path : Type := nat -> X.
(** Everything that is sampled: for every variable a value for every choice of samples of its plates. *)
Definition world : Type := nat -> list nat -> X.

(** A program: the variables in the order in which they are sampled; the plates of each; the variables and the choice of
    samples its distribution depends on; its support, and its log-probability on a path (at the value it has there). *)
Record program : Type := mkProgram {
  pg_vars : list nat;
  pg_plates : nat -> list plate;
  pg_deps : nat -> list nat;
  pg_support : nat -> assignment -> path -> list X;
  pg_logp : nat -> assignment -> path -> V }.

Definition put (r : path) (a : nat) (x : X) : path := fun b => if b =? a then x else r b.
Definition write (w : world) (a : nat) (i : list nat) (x : X) : world :=
  fun b j => if (b =? a) && (if list_eq_dec Nat.eq_dec j i then true else false) then x else w b j.

(** The path through world [w] at the choice of samples [s]. *)
Definition along (pg : program) (w : world) (s : assignment) : path :=
  fun a => w a (map (fun p => s (pname p)) (pg_plates pg a)).

Variable o : sops V.
Variable o_exp : V -> V.
Variable pg : program.

Definition prob (a : nat) (s : assignment) (r : path) (x : X) : V := o_exp (pg_logp pg a s (put r a x)).

(** The expectation of [f] over one run of the program with one sample of every variable, as a function of the
    parameters. *)
Fixpoint mean_from (vs : list nat) (s : assignment) (r : path) (f : path -> V) : V :=
  match vs with
  | [] => f r
  | a :: l => osum o (map (fun x => o_mul o (prob a s r x) (mean_from l s (put r a x) f)) (pg_support pg a s r))
  end.
Definition mean (s : assignment) (r : path) (f : path -> V) : V := mean_from (pg_vars pg) s r f.

(** The expectation over what storch samples: every variable at every choice of samples of its plates, independently given
    the path there, with the probabilities at the current parameters. *)
Definition sites : list (nat * list nat) :=
  flat_map (fun a => map (pair a) (indices (map pn (pg_plates pg a)))) (pg_vars pg).
Definition choice (a : nat) (i : list nat) : assignment := set_all (fun _ => 0) (pg_plates pg a) i.
Fixpoint sampled_from (l : list (nat * list nat)) (w : world) (f : world -> V) : V :=
  match l with
  | [] => f w
  | (a, i) :: l =>
      let s := choice a i in
      osum o (map (fun x => o_mul o (o_det o (prob a s (along pg w s) x)) (sampled_from l (write w a i x) f))
                  (pg_support pg a s (along pg w s)))
  end.
Definition sampled (w : world) (f : world -> V) : V := sampled_from sites w f.

(** The program is acyclic, its distributions are distributions whatever the parameters, they depend only on what they
    say, and a variable has the plates of the variables it depends on. *)
Record program_ok : Prop := {
  po_nodup : NoDup (pg_vars pg);
  po_order : forall l a r, pg_vars pg = l ++ a :: r -> incl (pg_deps pg a) l;
  po_names : forall a, In a (pg_vars pg) -> NoDup (map pname (pg_plates pg a));
  po_nested : forall a b, In a (pg_vars pg) -> In b (pg_deps pg a) ->
    incl (map pname (pg_plates pg b)) (map pname (pg_plates pg a));
  po_local : forall a s s' r r', In a (pg_vars pg) -> (forall p, In p (pg_plates pg a) -> s (pname p) = s' (pname p)) ->
    (forall b, In b (pg_deps pg a) -> r b = r' b) ->
    pg_support pg a s r = pg_support pg a s' r' /\ (r a = r' a -> pg_logp pg a s r = pg_logp pg a s' r');
  po_sums : forall a s r, In a (pg_vars pg) -> osum o (map (prob a s r) (pg_support pg a s r)) = o_one o
}.

(** What a cost depends on: the variables [T], closed under dependency. The variables [anc] get a score-function term; the
    distributions of the others do not depend on the parameters. *)
Record depends_on (FP : list plate) (T anc : list nat) (cost : assignment -> path -> V) : Prop := {
  dp_vars : incl T (pg_vars pg);
  dp_closed : forall a, In a T -> incl (pg_deps pg a) T;
  dp_plates : forall a p, In a T -> In p (pg_plates pg a) -> In p FP;
  dp_anc : incl anc T;
  dp_cost : forall s r r', (forall a, In a T -> r a = r' a) -> cost s r = cost s r';
  dp_free : forall a s r, In a T -> ~ In a anc -> o_det o (o_exp (pg_logp pg a s r)) = o_exp (pg_logp pg a s r)
}.

End Spec.
Arguments program : clear implicits.

(** [g] does not depend on the sample of variable [a] at index [i] or on anything drawn after looking at it: it is a function
    of a set [K] of samples without that one, closed under the dependencies of the program. *)
Definition independent {V X Y : Type} (pg : program V X) (a : nat) (i : list nat) (g : @world X -> Y) : Prop :=
  exists K : nat -> list nat -> bool,
    K a i = false /\
    (forall b j c, In b (pg_vars pg) -> K b j = true -> In c (pg_deps pg b) ->
       K c (map (fun p => choice pg b j (pname p)) (pg_plates pg c)) = true) /\
    forall w w', (forall b j, K b j = true -> w b j = w' b j) -> g w = g w'.

(** Numbers that know their first derivative only: a product of two numbers that evaluate to zero is zero. *)
Definition first_order {V : Type} (o : sops V) : Prop :=
  forall x y, o_det o x = o_zero o -> o_det o y = o_zero o -> o_mul o x y = o_zero o.
