(** Python numbers as they reach the argument checks. *)
From Coq Require Import QArith.
From Verif Require Import Base.
Inductive pynum := PyInt (z : Z) | PyFloat (q : Q).
Definition is_int (x : pynum) : bool := match x with PyInt _ => true | PyFloat _ => false end.
Definition py_lt0 (x : pynum) : bool := match x with PyInt z => z <? 0 | PyFloat q => negb (Qle_bool 0 q) end.
Definition py_le0 (x : pynum) : bool := match x with PyInt z => z <=? 0 | PyFloat q => Qle_bool q 0 end.
Inductive outcome (A : Type) := Ok (a : A) | ValueError | RuntimeError | IndexError.
Arguments Ok {A} a. Arguments ValueError {A}. Arguments RuntimeError {A}. Arguments IndexError {A}.
