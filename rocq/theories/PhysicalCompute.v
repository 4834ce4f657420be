(** Classes closed under inversion and elements of order two in the tabulated point groups. *)
From Coq Require Import List Arith ZArith Znumtheory QArith Bool String Lia Permutation.
From mathcomp Require Import all_ssreflect all_algebra.
From Verif Require Import Py Mat3 MatQ GroupModel GroupSpec GroupProofs SpaceGroupProofs GroupProofs2
  PointGroupData PointGroupModel PointGroupSpec ChainSpec ChainProofs PointGroupProofs
  RepSpec RepTheory RepModel CExpSpec ChainModel IndexRepSpec IndexGroup SmallModel SmallSpec SmallTheory PointDims ClassSpec TextbookSpec DimList ClassCompute
  PointClasses IndicatorSpec PhysicalSpec.
Import Order.TTheory GRing.Theory Num.Theory.
Set Implicit Arguments.
Unset Strict Implicit.
Unset Printing Implicit Defensive.
Local Open Scope nat_scope.

Definition ambb (n : nat) (mul : nat -> nat -> nat) (e i : nat) : bool :=
  has (fun j => (mul i j == e :> nat) && conjb n mul i j) (iota 0 n).
Lemma ambbP n mul e i : reflect (ambivalent n mul e i) (ambb n mul e i).
Proof.
apply: (iffP hasP) => [[j]|[j hj [h1 /conjbP h2]]].
  by rewrite mem_iota add0n /= => hj /andP [/eqP h1 /conjbP h2]; exists j.
by exists j; rewrite ?mem_iota // h1 eqxx.
Qed.
Definition involutions (n : nat) (mul : nat -> nat -> nat) (e : nat) : nat := count (fun i => mul i i == e :> nat) (iota 0 n).

Definition setting_physical (x : string * nat * list mat) : bool :=
  let: (s, i, l) := x in
  let n := size l in let t := table_or_nil l in
  let amb := find_reps n (tget t) (ambb n (tget t) 0) in
  let ds := dims_of single_valued s in
  let off := size ds - size amb in
  [&& class_repsb n (tget t) (ambb n (tget t) 0) amb, size amb <= size ds,
      \sum_(d <- ds) d == involutions n (tget t) 0 + off :> nat &
      perm_eq (dims_of physical s ++ nseq off 1) (ds ++ nseq off./2 2)].
Lemma physical_settings : List.forallb setting_physical all_settings = true.
Proof.
have sumE (l : seq nat) : \sum_(d <- l) d = foldr addn 0 l by elim: l => [|x l IH]; rewrite ?big_nil // big_cons IH.
have -> : List.forallb setting_physical all_settings = List.forallb (fun x : string * nat * list mat =>
  let: (s, i, l) := x in
  let n := size l in let t := table_or_nil l in
  let amb := find_reps n (tget t) (ambb n (tget t) 0) in
  let ds := dims_of single_valued s in
  let off := size ds - size amb in
  [&& class_repsb n (tget t) (ambb n (tget t) 0) amb, size amb <= size ds,
      foldr addn 0 ds == involutions n (tget t) 0 + off :> nat &
      perm_eq (dims_of physical s ++ nseq off 1) (ds ++ nseq off./2 2)]) all_settings.
  by elim: all_settings => //= -[[s i] l] r ->; congr andb; rewrite /setting_physical sumE.
vm_cast_no_check (eq_refl true).
Qed.

Section Classes.
Variables (rots : list mat) (mul : nat -> nat -> nat) (e : nat).
Hypotheses (LG : lists_group rots) (M : multiplication rots mul e).
Variables (s : string) (P : qmat) (settings : list (list mat)) (std : list mat).
Hypotheses (hs : dict_get pg_dataset s = Ret settings) (hstd : List.In std settings)
  (dP : ~ Qeq (qdet P) (inject_Z Z0))
  (iP : forall r, List.In r rots -> qintegral (qmul (qmul (qinv P) (qofz r)) P))
  (pm : Permutation std (List.map (conj_round P) rots)).
Lemma point_physical : let ds := dims_of single_valued s in
  exists amb, let off := size ds - size amb in
  [/\ class_representatives (size rots) mul (ambivalent (size rots) mul e) amb, size amb <= size ds,
    \sum_(d <- ds) d = involutions (size rots) mul e + off &
    perm_eq (dims_of physical s ++ nseq off 1) (ds ++ nseq off./2 2)].
Proof.
have [ts [f [tsE sz [f1 f3 f4] tlt f5]]] := setting_iso LG M hs hstd dP iP pm.
have [i hi] := List.In_nth_error _ _ hstd.
have [GS [E0 _]] := setting_facts _ _ _ _ hs hi.
have n0 : 0 < size rots by rewrite -sz; case: (std) E0.
have En : List.nth 0 std mid = mid by apply: List.nth_error_nth.
have G : group_law (size rots) (tget ts) 0.
  by rewrite -sz; apply: (cayley_rot_group_law std ts 0%N GS tsE) => //; rewrite -[List.length _]/(size std) sz; exact/ssrnat.ltP.
have finj := f_inj f1 f4.
have G' := mult_group_law LG M.
have f0 : f 0 = e.
  have [j hj fj] := f4 e (mt_e M).
  have e0 : tget ts 0 j = j by apply: (gl_1l _ _ _ G); apply/ssrnat.ltP.
  have := f3 0 j n0 hj; rewrite e0 fj => h; rewrite h.
  by have := gl_1r _ _ _ G' (f 0); move=> ->; [|apply/ssrnat.ltP; exact: f1].
have amE x : x < size rots -> ambivalent (size rots) (tget ts) 0 x <-> ambivalent (size rots) mul e (f x).
  move=> hx; split=> [[j hj [h1 h2]]|[j /f4 [j' hj <-] [h1 h2]]].
    exists (f j); first exact: f1. by split; [rewrite -f3 // h1|apply/(iso_conj f1 f3 f4 tlt hx hj)].
  exists j' => //; split; last exact/(iso_conj f1 f3 f4 tlt hx hj).
  by apply: finj => //; [exact: tlt|rewrite f3 // h1 f0].
have iE : involutions (size rots) (tget ts) 0 = involutions (size rots) mul e.
  rewrite /involutions.
  have pf : perm_eq (map f (iota 0 (size rots))) (iota 0 (size rots)).
    apply: uniq_perm; rewrite ?iota_uniq //.
      rewrite map_inj_in_uniq ?iota_uniq // => a b; rewrite !mem_iota !add0n /=; exact: finj.
    move=> x; rewrite mem_iota add0n /=; apply/mapP/idP => [[k]|/f4 [k hk <-]]; first by rewrite mem_iota add0n /= => /f1 hk ->.
    by exists k; rewrite ?mem_iota.
  rewrite -[RHS](seq.permP pf) count_map; apply: eq_in_count => k; rewrite mem_iota add0n /= => hk.
  rewrite -f3 // -f0; apply/eqP/eqP => [-> //|]; apply: finj => //; exact: tlt.
have hc := proj1 (List.forallb_forall _ _) physical_settings _ (in_all_settings _ _ _ _ hs hi).
move: hc; rewrite /setting_physical /table_or_nil tsE sz; cbv zeta; set amb := find_reps _ _ _.
move=> /and4P [/class_repsb_sound cr ls /eqP sm pe].
exists (map f amb); rewrite size_map -iE; split=> //.
apply: (iso_classes f1 f3 f4 tlt (P := fun x => ambb (size rots) (tget ts) 0 x)) => // x hx.
by split=> [/ambbP/(amE x hx)|/(amE x hx) h] //; apply/ambbP.
Qed.
End Classes.
