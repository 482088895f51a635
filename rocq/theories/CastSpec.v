(** * CastSpec: conversion of arrays to numbers without loss. *)
From Verif Require Import Prelude Validate Model ModelSpec.
Local Open Scope nat_scope.

(** The dtype of the argument [X]. *)
Definition query_dtype {E NM} (x : xin E NM) : dtype := match x with XFrame a _ | XList a | XArray a => a_dtype a | XScalar t _ => t end.

(** The numbers [read] are the elements [given]: as they are for the listed dtypes, otherwise converted one by one, each equal to
    what was given. *)
Definition faithful {E A} (c : cast E A) (t : dtype) (given : list E) (read : list A) : Prop :=
  if supported t then read = map (as_is c) given
  else Forall2 (fun g r => astype c g = Ok r /\ unchanged c g r = true) given read.

(** All elements can be converted, but one of them changes by it. *)
Definition lossy {E A} (c : cast E A) (t : dtype) (given : list E) : Prop :=
  supported t = false /\ (forall g, In g given -> exists r, astype c g = Ok r) /\
  exists g r, In g given /\ astype c g = Ok r /\ unchanged c g r = false.

(** The same argument with another dtype. *)
Definition with_dtype {E NM} (t : dtype) (x : xin E NM) : xin E NM :=
  match x with
  | XFrame a cs => XFrame (mkArr (a_shape a) t (a_data a)) cs
  | XList a => XList (mkArr (a_shape a) t (a_data a))
  | XArray a => XArray (mkArr (a_shape a) t (a_data a))
  | XScalar _ e => XScalar t e
  end.
