(** Generated by tools/gen_pointgroup.py from the text of src/spgrep/pointgroup.py. Do not edit. *)
From Coq Require Import List String ZArith.
From Verif Require Import Mat3.
Import ListNotations.
Open Scope string_scope.

(** pointgroup.py:14-575 pg_dataset: symbol -> settings -> operations. *)
Definition pg_dataset : list (string * list (list mat)) := [
  ("1", [
    [Mat 1 0 0 0 1 0 0 0 1]]);
  ("-1", [
    [Mat 1 0 0 0 1 0 0 0 1;
     Mat (-1) 0 0 0 (-1) 0 0 0 (-1)]]);
  ("2", [
    [Mat 1 0 0 0 1 0 0 0 1;
     Mat 1 0 0 0 (-1) 0 0 0 (-1)];
    [Mat 1 0 0 0 1 0 0 0 1;
     Mat (-1) 0 0 0 1 0 0 0 (-1)];
    [Mat 1 0 0 0 1 0 0 0 1;
     Mat (-1) 0 0 0 (-1) 0 0 0 1]]);
  ("m", [
    [Mat 1 0 0 0 1 0 0 0 1;
     Mat (-1) 0 0 0 1 0 0 0 1];
    [Mat 1 0 0 0 1 0 0 0 1;
     Mat 1 0 0 0 (-1) 0 0 0 1];
    [Mat 1 0 0 0 1 0 0 0 1;
     Mat 1 0 0 0 1 0 0 0 (-1)]]);
  ("2/m", [
    [Mat 1 0 0 0 1 0 0 0 1;
     Mat (-1) 0 0 0 1 0 0 0 (-1);
     Mat (-1) 0 0 0 (-1) 0 0 0 (-1);
     Mat 1 0 0 0 (-1) 0 0 0 1]]);
  ("222", [
    [Mat 1 0 0 0 1 0 0 0 1;
     Mat (-1) 0 0 0 (-1) 0 0 0 1;
     Mat (-1) 0 0 0 1 0 0 0 (-1);
     Mat 1 0 0 0 (-1) 0 0 0 (-1)]]);
  ("mm2", [
    [Mat 1 0 0 0 1 0 0 0 1;
     Mat 1 0 0 0 (-1) 0 0 0 (-1);
     Mat 1 0 0 0 1 0 0 0 (-1);
     Mat 1 0 0 0 (-1) 0 0 0 1];
    [Mat 1 0 0 0 1 0 0 0 1;
     Mat (-1) 0 0 0 1 0 0 0 (-1);
     Mat 1 0 0 0 1 0 0 0 (-1);
     Mat (-1) 0 0 0 1 0 0 0 1];
    [Mat 1 0 0 0 1 0 0 0 1;
     Mat (-1) 0 0 0 (-1) 0 0 0 1;
     Mat 1 0 0 0 (-1) 0 0 0 1;
     Mat (-1) 0 0 0 1 0 0 0 1]]);
  ("mmm", [
    [Mat 1 0 0 0 1 0 0 0 1;
     Mat (-1) 0 0 0 (-1) 0 0 0 1;
     Mat (-1) 0 0 0 1 0 0 0 (-1);
     Mat 1 0 0 0 (-1) 0 0 0 (-1);
     Mat (-1) 0 0 0 (-1) 0 0 0 (-1);
     Mat 1 0 0 0 1 0 0 0 (-1);
     Mat 1 0 0 0 (-1) 0 0 0 1;
     Mat (-1) 0 0 0 1 0 0 0 1]]);
  ("4", [
    [Mat 1 0 0 0 1 0 0 0 1;
     Mat (-1) 0 0 0 (-1) 0 0 0 1;
     Mat 0 (-1) 0 1 0 0 0 0 1;
     Mat 0 1 0 (-1) 0 0 0 0 1]]);
  ("-4", [
    [Mat 1 0 0 0 1 0 0 0 1;
     Mat (-1) 0 0 0 (-1) 0 0 0 1;
     Mat 0 1 0 (-1) 0 0 0 0 (-1);
     Mat 0 (-1) 0 1 0 0 0 0 (-1)]]);
  ("4/m", [
    [Mat 1 0 0 0 1 0 0 0 1;
     Mat (-1) 0 0 0 (-1) 0 0 0 1;
     Mat 0 (-1) 0 1 0 0 0 0 1;
     Mat 0 1 0 (-1) 0 0 0 0 1;
     Mat (-1) 0 0 0 (-1) 0 0 0 (-1);
     Mat 1 0 0 0 1 0 0 0 (-1);
     Mat 0 1 0 (-1) 0 0 0 0 (-1);
     Mat 0 (-1) 0 1 0 0 0 0 (-1)]]);
  ("422", [
    [Mat 1 0 0 0 1 0 0 0 1;
     Mat (-1) 0 0 0 (-1) 0 0 0 1;
     Mat 0 (-1) 0 1 0 0 0 0 1;
     Mat 0 1 0 (-1) 0 0 0 0 1;
     Mat (-1) 0 0 0 1 0 0 0 (-1);
     Mat 1 0 0 0 (-1) 0 0 0 (-1);
     Mat 0 1 0 1 0 0 0 0 (-1);
     Mat 0 (-1) 0 (-1) 0 0 0 0 (-1)]]);
  ("4mm", [
    [Mat 1 0 0 0 1 0 0 0 1;
     Mat (-1) 0 0 0 (-1) 0 0 0 1;
     Mat 0 (-1) 0 1 0 0 0 0 1;
     Mat 0 1 0 (-1) 0 0 0 0 1;
     Mat 1 0 0 0 (-1) 0 0 0 1;
     Mat (-1) 0 0 0 1 0 0 0 1;
     Mat 0 (-1) 0 (-1) 0 0 0 0 1;
     Mat 0 1 0 1 0 0 0 0 1]]);
  ("-42m", [
    [Mat 1 0 0 0 1 0 0 0 1;
     Mat (-1) 0 0 0 (-1) 0 0 0 1;
     Mat 0 1 0 (-1) 0 0 0 0 (-1);
     Mat 0 (-1) 0 1 0 0 0 0 (-1);
     Mat (-1) 0 0 0 1 0 0 0 (-1);
     Mat 1 0 0 0 (-1) 0 0 0 (-1);
     Mat 0 (-1) 0 (-1) 0 0 0 0 1;
     Mat 0 1 0 1 0 0 0 0 1];
    [Mat 1 0 0 0 1 0 0 0 1;
     Mat (-1) 0 0 0 (-1) 0 0 0 1;
     Mat 0 1 0 (-1) 0 0 0 0 (-1);
     Mat 0 (-1) 0 1 0 0 0 0 (-1);
     Mat 1 0 0 0 (-1) 0 0 0 1;
     Mat (-1) 0 0 0 1 0 0 0 1;
     Mat 0 1 0 1 0 0 0 0 (-1);
     Mat 0 (-1) 0 (-1) 0 0 0 0 (-1)]]);
  ("4/mmm", [
    [Mat 1 0 0 0 1 0 0 0 1;
     Mat (-1) 0 0 0 (-1) 0 0 0 1;
     Mat 0 (-1) 0 1 0 0 0 0 1;
     Mat 0 1 0 (-1) 0 0 0 0 1;
     Mat (-1) 0 0 0 1 0 0 0 (-1);
     Mat 1 0 0 0 (-1) 0 0 0 (-1);
     Mat 0 1 0 1 0 0 0 0 (-1);
     Mat 0 (-1) 0 (-1) 0 0 0 0 (-1);
     Mat (-1) 0 0 0 (-1) 0 0 0 (-1);
     Mat 1 0 0 0 1 0 0 0 (-1);
     Mat 0 1 0 (-1) 0 0 0 0 (-1);
     Mat 0 (-1) 0 1 0 0 0 0 (-1);
     Mat 1 0 0 0 (-1) 0 0 0 1;
     Mat (-1) 0 0 0 1 0 0 0 1;
     Mat 0 (-1) 0 (-1) 0 0 0 0 1;
     Mat 0 1 0 1 0 0 0 0 1]]);
  ("3", [
    [Mat 1 0 0 0 1 0 0 0 1;
     Mat 0 (-1) 0 1 (-1) 0 0 0 1;
     Mat (-1) 1 0 (-1) 0 0 0 0 1]]);
  ("-3", [
    [Mat 1 0 0 0 1 0 0 0 1;
     Mat 0 (-1) 0 1 (-1) 0 0 0 1;
     Mat (-1) 1 0 (-1) 0 0 0 0 1;
     Mat (-1) 0 0 0 (-1) 0 0 0 (-1);
     Mat 0 1 0 (-1) 1 0 0 0 (-1);
     Mat 1 (-1) 0 1 0 0 0 0 (-1)]]);
  ("32", [
    [Mat 1 0 0 0 1 0 0 0 1;
     Mat 0 (-1) 0 1 (-1) 0 0 0 1;
     Mat (-1) 1 0 (-1) 0 0 0 0 1;
     Mat 0 (-1) 0 (-1) 0 0 0 0 (-1);
     Mat (-1) 1 0 0 1 0 0 0 (-1);
     Mat 1 0 0 1 (-1) 0 0 0 (-1)];
    [Mat 1 0 0 0 1 0 0 0 1;
     Mat 0 (-1) 0 1 (-1) 0 0 0 1;
     Mat (-1) 1 0 (-1) 0 0 0 0 1;
     Mat 0 1 0 1 0 0 0 0 (-1);
     Mat 1 (-1) 0 0 (-1) 0 0 0 (-1);
     Mat (-1) 0 0 (-1) 1 0 0 0 (-1)]]);
  ("3m", [
    [Mat 1 0 0 0 1 0 0 0 1;
     Mat 0 (-1) 0 1 (-1) 0 0 0 1;
     Mat (-1) 1 0 (-1) 0 0 0 0 1;
     Mat 0 (-1) 0 (-1) 0 0 0 0 1;
     Mat (-1) 1 0 0 1 0 0 0 1;
     Mat 1 0 0 1 (-1) 0 0 0 1];
    [Mat 1 0 0 0 1 0 0 0 1;
     Mat 0 (-1) 0 1 (-1) 0 0 0 1;
     Mat (-1) 1 0 (-1) 0 0 0 0 1;
     Mat 0 1 0 1 0 0 0 0 1;
     Mat 1 (-1) 0 0 (-1) 0 0 0 1;
     Mat (-1) 0 0 (-1) 1 0 0 0 1]]);
  ("-3m", [
    [Mat 1 0 0 0 1 0 0 0 1;
     Mat 0 (-1) 0 1 (-1) 0 0 0 1;
     Mat (-1) 1 0 (-1) 0 0 0 0 1;
     Mat 0 (-1) 0 (-1) 0 0 0 0 (-1);
     Mat (-1) 1 0 0 1 0 0 0 (-1);
     Mat 1 0 0 1 (-1) 0 0 0 (-1);
     Mat (-1) 0 0 0 (-1) 0 0 0 (-1);
     Mat 0 1 0 (-1) 1 0 0 0 (-1);
     Mat 1 (-1) 0 1 0 0 0 0 (-1);
     Mat 0 1 0 1 0 0 0 0 1;
     Mat 1 (-1) 0 0 (-1) 0 0 0 1;
     Mat (-1) 0 0 (-1) 1 0 0 0 1];
    [Mat 1 0 0 0 1 0 0 0 1;
     Mat 0 (-1) 0 1 (-1) 0 0 0 1;
     Mat (-1) 1 0 (-1) 0 0 0 0 1;
     Mat 0 1 0 1 0 0 0 0 (-1);
     Mat 1 (-1) 0 0 (-1) 0 0 0 (-1);
     Mat (-1) 0 0 (-1) 1 0 0 0 (-1);
     Mat (-1) 0 0 0 (-1) 0 0 0 (-1);
     Mat 0 1 0 (-1) 1 0 0 0 (-1);
     Mat 1 (-1) 0 1 0 0 0 0 (-1);
     Mat 0 (-1) 0 (-1) 0 0 0 0 1;
     Mat (-1) 1 0 0 1 0 0 0 1;
     Mat 1 0 0 1 (-1) 0 0 0 1]]);
  ("6", [
    [Mat 1 0 0 0 1 0 0 0 1;
     Mat 0 (-1) 0 1 (-1) 0 0 0 1;
     Mat (-1) 1 0 (-1) 0 0 0 0 1;
     Mat (-1) 0 0 0 (-1) 0 0 0 1;
     Mat 0 1 0 (-1) 1 0 0 0 1;
     Mat 1 (-1) 0 1 0 0 0 0 1]]);
  ("-6", [
    [Mat 1 0 0 0 1 0 0 0 1;
     Mat 0 (-1) 0 1 (-1) 0 0 0 1;
     Mat (-1) 1 0 (-1) 0 0 0 0 1;
     Mat 1 0 0 0 1 0 0 0 (-1);
     Mat 0 (-1) 0 1 (-1) 0 0 0 (-1);
     Mat (-1) 1 0 (-1) 0 0 0 0 (-1)]]);
  ("6/m", [
    [Mat 1 0 0 0 1 0 0 0 1;
     Mat 0 (-1) 0 1 (-1) 0 0 0 1;
     Mat (-1) 1 0 (-1) 0 0 0 0 1;
     Mat (-1) 0 0 0 (-1) 0 0 0 1;
     Mat 0 1 0 (-1) 1 0 0 0 1;
     Mat 1 (-1) 0 1 0 0 0 0 1;
     Mat (-1) 0 0 0 (-1) 0 0 0 (-1);
     Mat 0 1 0 (-1) 1 0 0 0 (-1);
     Mat 1 (-1) 0 1 0 0 0 0 (-1);
     Mat 1 0 0 0 1 0 0 0 (-1);
     Mat 0 (-1) 0 1 (-1) 0 0 0 (-1);
     Mat (-1) 1 0 (-1) 0 0 0 0 (-1)]]);
  ("622", [
    [Mat 1 0 0 0 1 0 0 0 1;
     Mat 0 (-1) 0 1 (-1) 0 0 0 1;
     Mat (-1) 1 0 (-1) 0 0 0 0 1;
     Mat (-1) 0 0 0 (-1) 0 0 0 1;
     Mat 0 1 0 (-1) 1 0 0 0 1;
     Mat 1 (-1) 0 1 0 0 0 0 1;
     Mat 0 1 0 1 0 0 0 0 (-1);
     Mat 1 (-1) 0 0 (-1) 0 0 0 (-1);
     Mat (-1) 0 0 (-1) 1 0 0 0 (-1);
     Mat 0 (-1) 0 (-1) 0 0 0 0 (-1);
     Mat (-1) 1 0 0 1 0 0 0 (-1);
     Mat 1 0 0 1 (-1) 0 0 0 (-1)]]);
  ("6mm", [
    [Mat 1 0 0 0 1 0 0 0 1;
     Mat 0 (-1) 0 1 (-1) 0 0 0 1;
     Mat (-1) 1 0 (-1) 0 0 0 0 1;
     Mat (-1) 0 0 0 (-1) 0 0 0 1;
     Mat 0 1 0 (-1) 1 0 0 0 1;
     Mat 1 (-1) 0 1 0 0 0 0 1;
     Mat 0 (-1) 0 (-1) 0 0 0 0 1;
     Mat (-1) 1 0 0 1 0 0 0 1;
     Mat 1 0 0 1 (-1) 0 0 0 1;
     Mat 0 1 0 1 0 0 0 0 1;
     Mat 1 (-1) 0 0 (-1) 0 0 0 1;
     Mat (-1) 0 0 (-1) 1 0 0 0 1]]);
  ("-6m2", [
    [Mat 1 0 0 0 1 0 0 0 1;
     Mat 0 (-1) 0 1 (-1) 0 0 0 1;
     Mat (-1) 1 0 (-1) 0 0 0 0 1;
     Mat 1 0 0 0 1 0 0 0 (-1);
     Mat 0 (-1) 0 1 (-1) 0 0 0 (-1);
     Mat (-1) 1 0 (-1) 0 0 0 0 (-1);
     Mat 0 (-1) 0 (-1) 0 0 0 0 1;
     Mat (-1) 1 0 0 1 0 0 0 1;
     Mat 1 0 0 1 (-1) 0 0 0 1;
     Mat 0 (-1) 0 (-1) 0 0 0 0 (-1);
     Mat (-1) 1 0 0 1 0 0 0 (-1);
     Mat 1 0 0 1 (-1) 0 0 0 (-1)];
    [Mat 1 0 0 0 1 0 0 0 1;
     Mat 0 (-1) 0 1 (-1) 0 0 0 1;
     Mat (-1) 1 0 (-1) 0 0 0 0 1;
     Mat 1 0 0 0 1 0 0 0 (-1);
     Mat 0 (-1) 0 1 (-1) 0 0 0 (-1);
     Mat (-1) 1 0 (-1) 0 0 0 0 (-1);
     Mat 0 1 0 1 0 0 0 0 (-1);
     Mat 1 (-1) 0 0 (-1) 0 0 0 (-1);
     Mat (-1) 0 0 (-1) 1 0 0 0 (-1);
     Mat 0 1 0 1 0 0 0 0 1;
     Mat 1 (-1) 0 0 (-1) 0 0 0 1;
     Mat (-1) 0 0 (-1) 1 0 0 0 1]]);
  ("6/mmm", [
    [Mat 1 0 0 0 1 0 0 0 1;
     Mat 0 (-1) 0 1 (-1) 0 0 0 1;
     Mat (-1) 1 0 (-1) 0 0 0 0 1;
     Mat (-1) 0 0 0 (-1) 0 0 0 1;
     Mat 0 1 0 (-1) 1 0 0 0 1;
     Mat 1 (-1) 0 1 0 0 0 0 1;
     Mat 0 1 0 1 0 0 0 0 (-1);
     Mat 1 (-1) 0 0 (-1) 0 0 0 (-1);
     Mat (-1) 0 0 (-1) 1 0 0 0 (-1);
     Mat 0 (-1) 0 (-1) 0 0 0 0 (-1);
     Mat (-1) 1 0 0 1 0 0 0 (-1);
     Mat 1 0 0 1 (-1) 0 0 0 (-1);
     Mat (-1) 0 0 0 (-1) 0 0 0 (-1);
     Mat 0 1 0 (-1) 1 0 0 0 (-1);
     Mat 1 (-1) 0 1 0 0 0 0 (-1);
     Mat 1 0 0 0 1 0 0 0 (-1);
     Mat 0 (-1) 0 1 (-1) 0 0 0 (-1);
     Mat (-1) 1 0 (-1) 0 0 0 0 (-1);
     Mat 0 (-1) 0 (-1) 0 0 0 0 1;
     Mat (-1) 1 0 0 1 0 0 0 1;
     Mat 1 0 0 1 (-1) 0 0 0 1;
     Mat 0 1 0 1 0 0 0 0 1;
     Mat 1 (-1) 0 0 (-1) 0 0 0 1;
     Mat (-1) 0 0 (-1) 1 0 0 0 1]]);
  ("23", [
    [Mat 1 0 0 0 1 0 0 0 1;
     Mat (-1) 0 0 0 (-1) 0 0 0 1;
     Mat (-1) 0 0 0 1 0 0 0 (-1);
     Mat 1 0 0 0 (-1) 0 0 0 (-1);
     Mat 0 0 1 1 0 0 0 1 0;
     Mat 0 0 1 (-1) 0 0 0 (-1) 0;
     Mat 0 0 (-1) (-1) 0 0 0 1 0;
     Mat 0 0 (-1) 1 0 0 0 (-1) 0;
     Mat 0 1 0 0 0 1 1 0 0;
     Mat 0 (-1) 0 0 0 1 (-1) 0 0;
     Mat 0 1 0 0 0 (-1) (-1) 0 0;
     Mat 0 (-1) 0 0 0 (-1) 1 0 0]]);
  ("m-3", [
    [Mat 1 0 0 0 1 0 0 0 1;
     Mat (-1) 0 0 0 (-1) 0 0 0 1;
     Mat (-1) 0 0 0 1 0 0 0 (-1);
     Mat 1 0 0 0 (-1) 0 0 0 (-1);
     Mat 0 0 1 1 0 0 0 1 0;
     Mat 0 0 1 (-1) 0 0 0 (-1) 0;
     Mat 0 0 (-1) (-1) 0 0 0 1 0;
     Mat 0 0 (-1) 1 0 0 0 (-1) 0;
     Mat 0 1 0 0 0 1 1 0 0;
     Mat 0 (-1) 0 0 0 1 (-1) 0 0;
     Mat 0 1 0 0 0 (-1) (-1) 0 0;
     Mat 0 (-1) 0 0 0 (-1) 1 0 0;
     Mat (-1) 0 0 0 (-1) 0 0 0 (-1);
     Mat 1 0 0 0 1 0 0 0 (-1);
     Mat 1 0 0 0 (-1) 0 0 0 1;
     Mat (-1) 0 0 0 1 0 0 0 1;
     Mat 0 0 (-1) (-1) 0 0 0 (-1) 0;
     Mat 0 0 (-1) 1 0 0 0 1 0;
     Mat 0 0 1 1 0 0 0 (-1) 0;
     Mat 0 0 1 (-1) 0 0 0 1 0;
     Mat 0 (-1) 0 0 0 (-1) (-1) 0 0;
     Mat 0 1 0 0 0 (-1) 1 0 0;
     Mat 0 (-1) 0 0 0 1 1 0 0;
     Mat 0 1 0 0 0 1 (-1) 0 0]]);
  ("432", [
    [Mat 1 0 0 0 1 0 0 0 1;
     Mat (-1) 0 0 0 (-1) 0 0 0 1;
     Mat (-1) 0 0 0 1 0 0 0 (-1);
     Mat 1 0 0 0 (-1) 0 0 0 (-1);
     Mat 0 0 1 1 0 0 0 1 0;
     Mat 0 0 1 (-1) 0 0 0 (-1) 0;
     Mat 0 0 (-1) (-1) 0 0 0 1 0;
     Mat 0 0 (-1) 1 0 0 0 (-1) 0;
     Mat 0 1 0 0 0 1 1 0 0;
     Mat 0 (-1) 0 0 0 1 (-1) 0 0;
     Mat 0 1 0 0 0 (-1) (-1) 0 0;
     Mat 0 (-1) 0 0 0 (-1) 1 0 0;
     Mat 0 1 0 1 0 0 0 0 (-1);
     Mat 0 (-1) 0 (-1) 0 0 0 0 (-1);
     Mat 0 1 0 (-1) 0 0 0 0 1;
     Mat 0 (-1) 0 1 0 0 0 0 1;
     Mat 1 0 0 0 0 1 0 (-1) 0;
     Mat (-1) 0 0 0 0 1 0 1 0;
     Mat (-1) 0 0 0 0 (-1) 0 (-1) 0;
     Mat 1 0 0 0 0 (-1) 0 1 0;
     Mat 0 0 1 0 1 0 (-1) 0 0;
     Mat 0 0 1 0 (-1) 0 1 0 0;
     Mat 0 0 (-1) 0 1 0 1 0 0;
     Mat 0 0 (-1) 0 (-1) 0 (-1) 0 0]]);
  ("-43m", [
    [Mat 1 0 0 0 1 0 0 0 1;
     Mat (-1) 0 0 0 (-1) 0 0 0 1;
     Mat (-1) 0 0 0 1 0 0 0 (-1);
     Mat 1 0 0 0 (-1) 0 0 0 (-1);
     Mat 0 0 1 1 0 0 0 1 0;
     Mat 0 0 1 (-1) 0 0 0 (-1) 0;
     Mat 0 0 (-1) (-1) 0 0 0 1 0;
     Mat 0 0 (-1) 1 0 0 0 (-1) 0;
     Mat 0 1 0 0 0 1 1 0 0;
     Mat 0 (-1) 0 0 0 1 (-1) 0 0;
     Mat 0 1 0 0 0 (-1) (-1) 0 0;
     Mat 0 (-1) 0 0 0 (-1) 1 0 0;
     Mat 0 1 0 1 0 0 0 0 1;
     Mat 0 (-1) 0 (-1) 0 0 0 0 1;
     Mat 0 1 0 (-1) 0 0 0 0 (-1);
     Mat 0 (-1) 0 1 0 0 0 0 (-1);
     Mat 1 0 0 0 0 1 0 1 0;
     Mat (-1) 0 0 0 0 1 0 (-1) 0;
     Mat (-1) 0 0 0 0 (-1) 0 1 0;
     Mat 1 0 0 0 0 (-1) 0 (-1) 0;
     Mat 0 0 1 0 1 0 1 0 0;
     Mat 0 0 1 0 (-1) 0 (-1) 0 0;
     Mat 0 0 (-1) 0 1 0 (-1) 0 0;
     Mat 0 0 (-1) 0 (-1) 0 1 0 0]]);
  ("m-3m", [
    [Mat 1 0 0 0 1 0 0 0 1;
     Mat (-1) 0 0 0 (-1) 0 0 0 1;
     Mat (-1) 0 0 0 1 0 0 0 (-1);
     Mat 1 0 0 0 (-1) 0 0 0 (-1);
     Mat 0 0 1 1 0 0 0 1 0;
     Mat 0 0 1 (-1) 0 0 0 (-1) 0;
     Mat 0 0 (-1) (-1) 0 0 0 1 0;
     Mat 0 0 (-1) 1 0 0 0 (-1) 0;
     Mat 0 1 0 0 0 1 1 0 0;
     Mat 0 (-1) 0 0 0 1 (-1) 0 0;
     Mat 0 1 0 0 0 (-1) (-1) 0 0;
     Mat 0 (-1) 0 0 0 (-1) 1 0 0;
     Mat 0 1 0 1 0 0 0 0 (-1);
     Mat 0 (-1) 0 (-1) 0 0 0 0 (-1);
     Mat 0 1 0 (-1) 0 0 0 0 1;
     Mat 0 (-1) 0 1 0 0 0 0 1;
     Mat 1 0 0 0 0 1 0 (-1) 0;
     Mat (-1) 0 0 0 0 1 0 1 0;
     Mat (-1) 0 0 0 0 (-1) 0 (-1) 0;
     Mat 1 0 0 0 0 (-1) 0 1 0;
     Mat 0 0 1 0 1 0 (-1) 0 0;
     Mat 0 0 1 0 (-1) 0 1 0 0;
     Mat 0 0 (-1) 0 1 0 1 0 0;
     Mat 0 0 (-1) 0 (-1) 0 (-1) 0 0;
     Mat (-1) 0 0 0 (-1) 0 0 0 (-1);
     Mat 1 0 0 0 1 0 0 0 (-1);
     Mat 1 0 0 0 (-1) 0 0 0 1;
     Mat (-1) 0 0 0 1 0 0 0 1;
     Mat 0 0 (-1) (-1) 0 0 0 (-1) 0;
     Mat 0 0 (-1) 1 0 0 0 1 0;
     Mat 0 0 1 1 0 0 0 (-1) 0;
     Mat 0 0 1 (-1) 0 0 0 1 0;
     Mat 0 (-1) 0 0 0 (-1) (-1) 0 0;
     Mat 0 1 0 0 0 (-1) 1 0 0;
     Mat 0 (-1) 0 0 0 1 1 0 0;
     Mat 0 1 0 0 0 1 (-1) 0 0;
     Mat 0 (-1) 0 (-1) 0 0 0 0 1;
     Mat 0 1 0 1 0 0 0 0 1;
     Mat 0 (-1) 0 1 0 0 0 0 (-1);
     Mat 0 1 0 (-1) 0 0 0 0 (-1);
     Mat (-1) 0 0 0 0 (-1) 0 1 0;
     Mat 1 0 0 0 0 (-1) 0 (-1) 0;
     Mat 1 0 0 0 0 1 0 1 0;
     Mat (-1) 0 0 0 0 1 0 (-1) 0;
     Mat 0 0 (-1) 0 (-1) 0 1 0 0;
     Mat 0 0 (-1) 0 1 0 (-1) 0 0;
     Mat 0 0 1 0 (-1) 0 (-1) 0 0;
     Mat 0 0 1 0 1 0 1 0 0]])].

(** pointgroup.py:580-662 pg_solvable_chain: symbol -> settings -> ((symbol, setting) of the normal subgroup, generator). *)
Definition pg_solvable_chain : list (string * list ((string * nat) * nat)) := [
  ("1", []);
  ("-1", [(("1", 0), 1)]);
  ("2", [(("1", 0), 1); (("1", 0), 1); (("1", 0), 1)]);
  ("m", [(("1", 0), 1); (("1", 0), 1); (("1", 0), 1)]);
  ("2/m", [(("2", 1), 2)]);
  ("222", [(("2", 2), 2)]);
  ("mm2", [(("2", 0), 2); (("2", 1), 2); (("2", 2), 2)]);
  ("mmm", [(("222", 0), 4)]);
  ("4", [(("1", 0), 2)]);
  ("-4", [(("1", 0), 2)]);
  ("4/m", [(("4", 0), 4)]);
  ("422", [(("4", 0), 4)]);
  ("4mm", [(("4", 0), 4)]);
  ("-42m", [(("-4", 0), 4); (("-4", 0), 4)]);
  ("4/mmm", [(("422", 0), 8)]);
  ("3", [(("1", 0), 1)]);
  ("-3", [(("3", 0), 3)]);
  ("32", [(("3", 0), 3); (("3", 0), 3)]);
  ("3m", [(("3", 0), 3); (("3", 0), 3)]);
  ("-3m", [(("32", 0), 6); (("32", 1), 6)]);
  ("6", [(("3", 0), 3)]);
  ("-6", [(("3", 0), 3)]);
  ("6/m", [(("6", 0), 6)]);
  ("622", [(("6", 0), 6)]);
  ("6mm", [(("6", 0), 6)]);
  ("-6m2", [(("-6", 0), 6); (("-6", 0), 6)]);
  ("6/mmm", [(("622", 0), 12)]);
  ("23", [(("222", 0), 4)]);
  ("m-3", [(("23", 0), 12)]);
  ("432", [(("23", 0), 12)]);
  ("-43m", [(("23", 0), 12)]);
  ("m-3m", [(("432", 0), 24)])].
