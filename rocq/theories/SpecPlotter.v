(** What a user expects to see in the pictures a plotter saves (C58), from the list of calls alone. *)
From Verif Require Import Base SpecGrid.
Open Scope Z_scope.

Section S.
Context {T D Name : Type}.
(** The calls a script makes, on all ranks: contourf of three local arrays; scatter or plot of some data D; savefig; clearfig; and in
    between the simulation goes on: new contents w of every array (but not of the plotter's own buffers). *)
Inductive plot_call := Contourf (x y f : nat) | DrawData (d : D) | SaveFig (name : Name) | ClearFig | Simulate (w : Z -> nat * Z -> T).
(** What is drawn: a contour of values f over coordinates x, y, given for every cell of the domain; or data. *)
Inductive artist := Contours (x y f : list Z -> T) | Data (d : D).
(** A picture: what is drawn, how many colour bars it has, whether it has the title given at construction. *)
Record picture := { shown : list artist; bars : nat; titled : bool }.

Variables (dims loc : list Z) (g : Z) (none : T).
(** The value of local array a at position P of the domain: its owner's. *)
Definition at_owner (u : Z -> nat * Z -> T) (a : nat) (P : list Z) : T :=
  match owner false dims loc P with Some (s, x) => u s (a, ravel (ghosted g loc) (map (fun i => i + g) x)) | None => none end.
(** The pictures that should be saved: u are the arrays' contents, l what has been drawn since the figure was last cleared. *)
Fixpoint should_save (u : Z -> nat * Z -> T) (l : list artist) (cs : list plot_call) : list (Name * list artist) :=
  match cs with
  | [] => []
  | Contourf x y f :: cs' => should_save u (l ++ [Contours (at_owner u x) (at_owner u y) (at_owner u f)]) cs'
  | DrawData d :: cs' => should_save u (l ++ [Data d]) cs'
  | SaveFig name :: cs' => (name, l) :: should_save u l cs'
  | ClearFig :: cs' => should_save u [] cs'
  | Simulate w :: cs' => should_save w l cs'
  end.
(** The same picture: the same values in every cell of the domain. *)
Definition same_artist (a b : artist) : Prop :=
  match a, b with
  | Contours x y f, Contours x' y' f' => forall P, inb (global_size dims loc) P -> x P = x' P /\ y P = y' P /\ f P = f' P
  | Data d, Data d' => d = d'
  | _, _ => False
  end.
(** Some contour has been drawn before the figure is cleared for the first time. *)
Fixpoint contour_before_clear (cs : list plot_call) : bool :=
  match cs with [] => true | Contourf _ _ _ :: _ => true | ClearFig :: _ => false | _ :: cs' => contour_before_clear cs' end.
(** The colour bars a saved picture has when every clearing removes one colour bar only: one per contour k drawn since the last
    clearing, and those s left over, one less than there were contours, from each time the figure was cleared before. *)
Fixpoint colour_bars (k s : nat) (cs : list plot_call) : list nat :=
  match cs with
  | [] => []
  | Contourf _ _ _ :: cs' => colour_bars (S k) s cs'
  | SaveFig _ :: cs' => (k + s)%nat :: colour_bars k s cs'
  | ClearFig :: cs' => colour_bars 0 (s + pred k) cs'
  | _ :: cs' => colour_bars k s cs'
  end.
(** Is the picture saved before the figure was ever cleared? *)
Fixpoint before_clear (t : bool) (cs : list plot_call) : list bool :=
  match cs with [] => [] | SaveFig _ :: cs' => t :: before_clear t cs' | ClearFig :: cs' => before_clear false cs' | _ :: cs' => before_clear t cs' end.
(** Between two clearings of the figure at most one contour is drawn. *)
Fixpoint one_contour (drawn : bool) (cs : list plot_call) : bool :=
  match cs with [] => true | Contourf _ _ _ :: cs' => negb drawn && one_contour true cs' | ClearFig :: cs' => one_contour false cs' | _ :: cs' => one_contour drawn cs' end.
(** A call that draws arrays of the simulation, not the plotter's own buffers bufs. *)
Definition user_arrays (bufs : list nat) (c : plot_call) : Prop :=
  match c with Contourf x y f => ~ In x bufs /\ ~ In y bufs /\ ~ In f bufs | _ => True end.
(** A file (who wrote it, its name, the picture in it) is the wanted one. *)
Definition wanted (master : Z) (file : Z * Name * picture) (want : Name * list artist) : Prop :=
  fst (fst file) = master /\ snd (fst file) = fst want /\ Forall2 same_artist (shown (snd file)) (snd want).
(** How many contours there are in a picture. *)
Definition contours (l : list artist) : nat := length (filter (fun a => match a with Contours _ _ _ => true | _ => false end) l).
End S.
Arguments plot_call : clear implicits.
Arguments artist : clear implicits.
Arguments picture : clear implicits.
