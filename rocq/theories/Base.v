(** Results of Python calls: a value or a raised exception. *)
From Coq Require Import List ZArith.
Set Implicit Arguments.

(** The exceptions raised by the modelled code.  [NaN] is not an exception: it
    stands for a computation that divides by zero and silently continues with
    inf/nan, for which nothing is claimed. *)
Inductive exn :=
| ValueError | AssertionError | KeyError | IndexError | TypeError
| AttributeError | NotImplementedError | UnboundLocalError | LinAlgError
| StopIteration | NaN.

Inductive res (A : Type) : Type :=
| Ok (a : A)
| Err (e : exn).
Arguments Ok {A} _.
Arguments Err {A} _.

Definition bind {A B} (x : res A) (f : A -> res B) : res B :=
  match x with Ok a => f a | Err e => Err e end.

Notation "'let!' x ':=' a 'in' b" := (bind a (fun x => b))
  (at level 200, x pattern, a at level 100, b at level 200).

Definition is_ok {A} (x : res A) : bool := match x with Ok _ => true | Err _ => false end.

Definition of_option {A} (e : exn) (x : option A) : res A :=
  match x with Some a => Ok a | None => Err e end.

Lemma bind_ok {A B} (x : res A) (f : A -> res B) b :
  bind x f = Ok b -> exists a, x = Ok a /\ f a = Ok b.
Proof. destruct x; simpl; [eauto|discriminate]. Qed.

(** Destruct a successful [let!] in hypothesis [H]. *)
Ltac ubind H a h := apply bind_ok in H; destruct H as [a [h H]]; cbv beta zeta in H.
