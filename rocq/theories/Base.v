(** Base: outcomes, checked array access and loops shared by all model files.
    Nothing here models a particular function of /repo; the constructs below give the
    C++ control structures and memory accesses an executable meaning. *)
From Coq Require Export List Arith NArith ZArith Lia Bool.
Export ListNotations.

(** Reasons for undefined behaviour. *)
Inductive ub : Type :=
| OobRead      (* read outside a vector *)
| OobWrite     (* write outside a vector *)
| NullDeref    (* access through a null shared_ptr *)
| Dangling     (* access through a pointer into freed storage *)
| Uninit       (* use of an uninitialised value *)
| DivZero      (* integer division by zero *)
| BadShift     (* shift by the word length or more *)
| BadCast      (* conversion of a floating-point number that does not fit the integer type *).

(** The outcome of a computation: a value, undefined behaviour, or fuel exhaustion of a model loop. *)
Inductive outcome (A : Type) : Type :=
| Ok (a : A)
| UB (u : ub)
| OutOfFuel.
Arguments Ok {A} a.
Arguments UB {A} u.
Arguments OutOfFuel {A}.

(** C++ exceptions that reach the Python caller; the text of the message is reduced to its kind. *)
Inductive exn : Type :=
| ENotLoaded | EBounds | EVertexTooBig | EVertexZero | ENoEdges | ENotSquare
| ESentinelSet | ECountMismatch | EBadEdge | EEdgeCount | EIndex | ESentinel
| EEmptySet | EFile | EStopIteration | EWeights | EKeyError | ETypeError | ENoMetric.

(** Result of a call that may raise: the object it was called on keeps its (possibly changed) state. *)
Inductive exc (A : Type) : Type :=
| Ret (a : A)
| Raise (e : exn).
Arguments Ret {A} a.
Arguments Raise {A} e.

Definition bind {A B : Type} (x : outcome A) (f : A -> outcome B) : outcome B :=
  match x with
  | Ok a => f a
  | UB u => UB u
  | OutOfFuel => OutOfFuel
  end.

Notation "x <- e ;; k" := (bind e (fun x => k))
  (at level 100, e at next level, right associativity).
Notation "' p <- e ;; k" := (bind e (fun x => match x with p => k end))
  (at level 100, p pattern, e at next level, right associativity).

(** Replace the element at position [i] (no effect when out of range; only used under a range check). *)
Fixpoint upd {A : Type} (l : list A) (i : nat) (a : A) : list A :=
  match l, i with
  | [], _ => []
  | _ :: r, 0 => a :: r
  | x :: r, S i' => x :: upd r i' a
  end.

(** Checked read and write of a vector element. *)
Definition rd {A : Type} (l : list A) (i : nat) : outcome A :=
  match nth_error l i with
  | Some a => Ok a
  | None => UB OobRead
  end.

Definition wr {A : Type} (l : list A) (i : nat) (a : A) : outcome (list A) :=
  if i <? length l then Ok (upd l i a) else UB OobWrite.

(** [for (x : l) s = f(x, s)] *)
Fixpoint foldM {X S : Type} (f : X -> S -> outcome S) (l : list X) (s : S) : outcome S :=
  match l with
  | [] => Ok s
  | x :: r => s' <- f x s;; foldM f r s'
  end.

(** [for (i = lo; i < hi; i++) s = f(i, s)] *)
Definition for_ {S : Type} (lo hi : nat) (f : nat -> S -> outcome S) (s : S) : outcome S :=
  foldM f (seq lo (hi - lo)) s.

(** One turn of a while loop: go on with a new state, or leave with a result. *)
Inductive step (S R : Type) : Type :=
| Cont (s : S)
| Done (r : R).
Arguments Cont {S R} s.
Arguments Done {S R} r.

(** While loop with linear fuel. *)
Fixpoint loopN {S R : Type} (fuel : nat) (body : S -> outcome (step S R)) (s : S) : outcome R :=
  match fuel with
  | 0 => OutOfFuel
  | Datatypes.S f =>
      r <- body s;;
      match r with
      | Cont s' => loopN f body s'
      | Done x => Ok x
      end
  end.

(** While loop with fuel [2^k], structured so that only the turns actually taken are computed. *)
Fixpoint loop2 {S R : Type} (k : nat) (body : S -> outcome (step S R)) (s : S) : outcome (step S R) :=
  match k with
  | 0 => body s
  | Datatypes.S k' =>
      r <- loop2 k' body s;;
      match r with
      | Cont s' => loop2 k' body s'
      | Done x => Ok (Done x)
      end
  end.

Definition run2 {S R : Type} (k : nat) (body : S -> outcome (step S R)) (s : S) : outcome R :=
  r <- loop2 k body s;;
  match r with
  | Done x => Ok x
  | Cont _ => OutOfFuel
  end.

(** u64 arithmetic on [Z] where wrap-around is observable. *)
Definition wrap (z : Z) : Z := (z mod 18446744073709551616)%Z.

(** Read [l] at a u64 index. *)
Definition rdz {A : Type} (l : list A) (i : Z) : outcome A :=
  if (i <? Z.of_nat (length l))%Z then rd l (Z.to_nat i) else UB OobRead.

(** A computation ends normally, with a result satisfying [Q]: no undefined behaviour, no exhausted fuel. Used to state theorems. *)
Definition ends_with {A : Type} (o : outcome A) (Q : A -> Prop) : Prop :=
  match o with Ok a => Q a | _ => False end.
