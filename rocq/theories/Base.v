(** Results with Python exceptions as values, and the list operations the code uses. *)
From Coq Require Import List Bool Arith ZArith Lia Permutation.
Import ListNotations.

(** The exceptions the modelled code can raise. [OtherException] is a bare
    [raise Exception(...)]. *)
Inductive exn :=
| AssertionError | ZeroDivisionError | ValueError | TypeError | NameError
| KeyError | IndexError | AttributeError | OtherException.

Inductive res (A : Type) :=
| Ok (a : A)
| Err (e : exn).
Arguments Ok {A}. Arguments Err {A}.

Definition bind {A B} (x : res A) (f : A -> res B) : res B :=
  match x with Ok a => f a | Err e => Err e end.
Notation "x <- e1 ;; e2" := (bind e1 (fun x => e2)) (at level 61, e1 at next level, right associativity).
Notation "' p <- e1 ;; e2" := (bind e1 (fun p => e2)) (at level 61, p pattern, e1 at next level, right associativity).
Notation "e1 ;;; e2" := (bind e1 (fun _ => e2)) (at level 61, right associativity).

(** Python's [assert b]. *)
Definition assert_ (b : bool) : res unit := if b then Ok tt else Err AssertionError.

(** [mapM f l]: a list comprehension whose body may raise. *)
Fixpoint mapM {A B} (f : A -> res B) (l : list A) : res (list B) :=
  match l with
  | [] => Ok []
  | x :: xs => y <- f x ;; ys <- mapM f xs ;; Ok (y :: ys)
  end.

(** [filterM f l]: [[x for x in l if f(x)]] where [f] may raise. *)
Fixpoint filterM {A} (f : A -> res bool) (l : list A) : res (list A) :=
  match l with
  | [] => Ok []
  | x :: xs => b <- f x ;; ys <- filterM f xs ;; Ok (if b then x :: ys else ys)
  end.

Fixpoint foldM {A S} (f : S -> A -> res S) (l : list A) (s : S) : res S :=
  match l with
  | [] => Ok s
  | x :: xs => s' <- f s x ;; foldM f xs s'
  end.

(** [zip(l, l[1:])] *)
Fixpoint pairs {A} (l : list A) : list (A * A) :=
  match l with
  | x :: ((y :: _) as t) => (x, y) :: pairs t
  | _ => []
  end.

(** [l[-1]] as an option. *)
Definition last_opt {A} (l : list A) : option A :=
  match l with [] => None | x :: xs => Some (last xs x) end.

Definition hd_opt {A} (l : list A) : option A :=
  match l with [] => None | x :: _ => Some x end.

(** [set(l)] as a duplicate-free list with respect to a decidable equality:
    the first of several equal elements is kept (CPython keeps the element that
    is already in the set). *)
Fixpoint memb {A} (eqb : A -> A -> bool) (x : A) (l : list A) : bool :=
  match l with [] => false | y :: ys => eqb y x || memb eqb x ys end.

Fixpoint dedup_acc {A} (eqb : A -> A -> bool) (l acc : list A) : list A :=
  match l with
  | [] => acc
  | x :: xs => if memb eqb x acc then dedup_acc eqb xs acc else dedup_acc eqb xs (acc ++ [x])
  end.
Definition dedup {A} (eqb : A -> A -> bool) (l : list A) : list A := dedup_acc eqb l [].

(** [a.intersection(b)] *)
Definition set_inter {A} (eqb : A -> A -> bool) (a b : list A) : list A :=
  filter (fun x => memb eqb x b) (dedup eqb a).

(** Set equality [set(a) == set(b)]: same size and inclusion. *)
Definition set_eqb {A} (eqb : A -> A -> bool) (a b : list A) : bool :=
  Nat.eqb (length (dedup eqb a)) (length (dedup eqb b)) &&
  forallb (fun x => memb eqb x b) (dedup eqb a).

(** Python's stable [sorted(l, key=...)] for a boolean strict order [lt]. *)
Fixpoint insert_sorted {A} (lt : A -> A -> bool) (x : A) (l : list A) : list A :=
  match l with
  | [] => [x]
  | y :: ys => if lt y x then y :: insert_sorted lt x ys else x :: l
  end.
Fixpoint sort_by {A} (lt : A -> A -> bool) (l : list A) : list A :=
  match l with
  | [] => []
  | x :: xs => insert_sorted lt x (sort_by lt xs)
  end.

(** Python's [min]/[max] of two values: the first one wins ties. *)
Definition pymin2 {A} (lt : A -> A -> bool) (a b : A) : A := if lt b a then b else a.
Definition pymax2 {A} (lt : A -> A -> bool) (a b : A) : A := if lt a b then b else a.

Lemma insert_sorted_perm : forall A (lt : A -> A -> bool) x l,
  Permutation (insert_sorted lt x l) (x :: l).
Proof.
  induction l as [|y ys IH]; simpl; auto.
  destruct (lt y x); auto.
  eapply perm_trans; [apply perm_skip, IH|]. apply perm_swap.
Qed.

Lemma sort_by_perm : forall A (lt : A -> A -> bool) l, Permutation (sort_by lt l) l.
Proof.
  induction l as [|x xs IH]; simpl; auto.
  eapply perm_trans; [apply insert_sorted_perm|]. auto.
Qed.

Lemma mapM_length : forall A B (f : A -> res B) l l', mapM f l = Ok l' -> length l' = length l.
Proof.
  induction l as [|x xs IH]; simpl; intros l' H; [inversion H; reflexivity|].
  destruct (f x); simpl in H; try discriminate.
  destruct (mapM f xs) eqn:E; simpl in H; try discriminate.
  inversion H; subst; simpl. f_equal; auto.
Qed.
