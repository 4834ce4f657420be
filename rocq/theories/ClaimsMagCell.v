(** Property theorems C74: co-representations of a magnetic group given in its conventional
    cell (core.py:268-460 with magmoms, 689-732), when the operations with different rotations
    come first. *)
From Coq Require Import QArith ZArith List Lia String.
From mathcomp Require Import all_ssreflect all_algebra.
From mathcomp Require Import algC.
From Verif Require Import Py Mat3 MatQ GroupModel GroupSpec GroupProofs TransformModel TransformSpec TransformProofs RepSpec RepModel
  IndexRepSpec ChainModel SmallModel SmallSpec SmallExamples CentringModel CentringProofs SpinorModel SpinorSpec SpinorExamples
  CorepModel CorepSpec CorepProofs SpaceGroupProofs MagProofs MagCellProofs ClaimsSmall ClaimsSpinor.
From Verif Require ClaimsCorep.
Import Order.TTheory GRing.Theory Num.Theory.
Set Implicit Arguments.
Unset Strict Implicit.
Unset Printing Implicit Defensive.
Local Open Scope ring_scope.
Delimit Scope Z_scope with coqZ.

(** The flags of the result of the primitive function are those of the operations it kept. *)
Lemma primitive_flags (C : numClosedFieldType) (E : numpy C) (G : trig C) L rots trans flags k method rtol atol max_num r lm :
  size trans = size rots ->
  get_magnetic_spinor_irreps_from_primitive_symmetry E G L rots trans flags k method rtol atol max_num = COk (r, lm) ->
  [/\ Sorted.StronglySorted Nat.lt lm, forall j, In j lm -> (j < size rots)%N &
      co_anti_linear r = List.map (fun i => List.nth i flags false) lm].
Proof.
move=> LE; rewrite /get_magnetic_spinor_irreps_from_primitive_symmetry; case: (not_primitive _ _ _) => //.
case EL: (get_little_group _ _ _ _) => [[lr lt] l0].
have [h1 [h2 [h3 h4]]] := little_group_spec _ _ _ _ _ _ _ LE EL.
case EN: (enumerate_spinor_small_corepresentations _ _ _ _ _ _ _ _ _ _ _) => [x| | |] //= [<- <-]; split=> //.
  by move=> j /h2 [/ssrnat.ltP].
set fl := List.map _ l0 in EN *; have lf : List.length lr = List.length fl by rewrite h3 !map_length.
move: EN; rewrite /enumerate_spinor_small_corepresentations; case: ifP => af.
  case: (enumerate_spinor_small_representations _ _ _ _ _ _ _ _ _ _) => //= y [<-].
  rewrite /co_anti_linear /= lf; elim: (fl) af => //= b l IH /andP [nb /IH ->].
  by case: b nb.
case: (decompose_by_maximal_space_subgroup _) => //= -[[[xsg ?] a0]|] //.
rewrite /get_corep_spinor_factor_system.
have sE : List.map snd (List.combine lr fl) = fl.
  by elim: (lr) (fl) lf => [|a l IH] [|b f] //= [/IH ->].
case: (mapM _ _) => //= U; case: (get_cayley_table_ops _) => //= t; rewrite sE.
case: (enumerate_unitary_irreps _ _ _ _ _ _ _ _) => //= raw.
case: (get_inverse_index _ _) => //= ia.
case: (cmap _ _) => //= pairs; case: (cmap _ _) => //= sq; case: (corep_pairs _ _ _ _ _ _ _ _) => //= ch.
by case: (cmap _ _) => //= cr [<-].
Qed.
(** The primitive function looks at the flags of the listed operations only. *)
Lemma primitive_flags_ext (C : numClosedFieldType) (E : numpy C) (G : trig C) L rots trans flags flags' k method rtol atol max_num :
  size trans = size rots -> (forall j, (j < size rots)%coq_nat -> List.nth j flags' false = List.nth j flags false) ->
  get_magnetic_spinor_irreps_from_primitive_symmetry E G L rots trans flags' k method rtol atol max_num =
  get_magnetic_spinor_irreps_from_primitive_symmetry E G L rots trans flags k method rtol atol max_num.
Proof.
move=> LE ext; rewrite /get_magnetic_spinor_irreps_from_primitive_symmetry; case: (not_primitive _ _ _) => //.
case EL: (get_little_group _ _ _ _) => [[lr lt] l0].
have [h1 [h2 _]] := little_group_spec _ _ _ _ _ _ _ LE EL.
suff -> : List.map (fun i => List.nth i flags' false) l0 = List.map (fun i => List.nth i flags false) l0 by [].
by apply: map_ext_in => i /h2 [hi _]; apply: ext.
Qed.

(** The first operations have different rotations and every rotation is among theirs: the
    result is that of the primitive cell for the first operations with their flags, spread
    over the operations of the conventional cell; [pi] takes a conventional operation to the
    position, in the primitive little group, of the operation with its rotation.  A returned
    conventional operation differs from that operation by a lattice translation, which
    contributes its Bloch phase. *)
Theorem C74_from_primitive : forall (C : numClosedFieldType) (E : numpy C) (G : trig C) choice hall_symbol hall_number P L
    rots trans flags rots' trans' flags' k method rtol atol max_num X z U anti lm ok,
  size trans = size rots -> size flags = size rots -> size trans' = size rots' ->
  get_primitive_transformation_matrix choice hall_symbol hall_number = Ret P ->
  NoDup (List.map (transform_rotation P) rots) ->
  (forall r, In r rots' -> In (transform_rotation P r) (List.map (transform_rotation P) rots)) ->
  get_magnetic_spacegroup_spinor_irreps E G choice hall_symbol hall_number L (rots ++ rots') (trans ++ trans') (flags ++ flags')
    k method rtol atol max_num = COk (X, z, U, anti, lm, ok) ->
  let pr := List.map (transform_rotation P) rots in let pt := List.map (fun t => vmap rem1 (transform_translation P t)) trans in
  let cr := List.map (transform_rotation P) (rots ++ rots') in let ct := List.map (transform_translation P) (trans ++ trans') in
  let pk := transform_kpoint P k in
  exists r lp pi,
  [/\ get_magnetic_spinor_irreps_from_primitive_symmetry E G (primitive_lattice P L) pr pt flags pk
        method rtol atol max_num = COk (r, lp),
      [/\ z = co_factors r, U = co_rotations r, anti = co_anti_linear r & ok = co_ok r],
      Sorted.StronglySorted Nat.lt lm /\
      forall i, In i lm <-> (i < size cr)%N /\ exists2 j, In j lp & List.nth i cr mid = List.nth j pr mid,
      forall i, In i lm -> (pi i < size lp)%N /\ List.nth i cr mid = List.nth (List.nth (pi i) lp 0%N) pr mid &
      X = [seq purify_irrep_value E (qC C atol_default) (@Arr C (adim A)
             [seq np_exp E (Qopp (vdot pk (vsub (List.nth i ct vzero) (List.nth (List.nth (pi i) lp 0%N) pt vzero)))) *:
                  aget A (pi i) | i <- lm]) | A <- co_irreps r]].
Proof.
move=> C E G choice hs hn P L rots trans flags rots' trans' flags' k method rtol atol max_num X z U anti lm ok LT LF LT' HP ND HI res pr pt cr ct pk.
move: res; rewrite /get_magnetic_spacegroup_spinor_irreps HP.
have E0 A B (x : A) (g : A -> cres B) : cbind (clift (Ret x)) g = g x by [].
rewrite E0 /transform_symmetry_and_kpoint -/cr -/ct -/pk.
have crE : cr = (pr ++ List.map (transform_rotation P) rots')%list by rewrite /cr List.map_app.
have ctE : ct = (List.map (transform_translation P) trans ++ List.map (transform_translation P) trans')%list by rewrite /ct List.map_app.
have := @blocks_unique pr (List.map (transform_translation P) trans) flags (List.map (transform_rotation P) rots')
  (List.map (transform_translation P) trans') flags'.
rewrite -crE -ctE; case=> //; try by rewrite ?map_length.
  by move=> x /in_map_iff [s [<- /HI]].
move=> uf [M [-> [uE [lM hM]]]].
have ptE : List.map (vmap rem1) (List.map (transform_translation P) trans) = pt by rewrite List.map_map.
have lpt : size pt = size pr by rewrite -![size _]/(List.length _) /pt /pr !map_length.
have uE' : forall j, (j < size pr)%coq_nat -> List.nth j uf false = List.nth j flags false.
  by move=> j; rewrite -[size pr]/(List.length pr); exact: uE.
rewrite ptE (primitive_flags_ext _ _ _ _ _ _ _ _ lpt uE').
case EN: (get_magnetic_spinor_irreps_from_primitive_symmetry _ _ _ _ _ _ _ _ _ _ _) => [[r lp]| | |] //.
have [Hs Hlt _] := primitive_flags lpt EN.
have Hnd : NoDup lp by apply: sorted_NoDup.
cbn [cbind]; rewrite /adjust_phase_for_centering_translations; set sel := select_little _ _ _ _.
move=> -[<- <- <- <- lmE okE].
pose pi i := if remapping lp (List.nth i M 0%N) is Some l then l else 0%N.
have MN i : (i < size cr)%coq_nat -> List.nth_error M i = Some (List.nth i M 0%N).
  by move=> hi; apply: nth_error_nth'; rewrite lM.
have MN' i m : List.nth_error M i = Some m -> (i < size cr)%coq_nat /\ List.nth i M 0%N = m.
  move=> h; split; last exact: nth_error_nth h.
  by rewrite -[size cr]/(List.length cr) -lM; apply/(nth_error_Some M i); rewrite h.
have selE x : In x sel -> [/\ (x.1 < size cr)%coq_nat, x.2.1 = pi x.1, List.nth_error lp (pi x.1) = Some (List.nth x.1 M 0%N) &
    x.2.2 = vsub (List.nth x.1 ct vzero) (List.nth (List.nth x.1 M 0%N) pt vzero)].
  case: x => i [l v] /select_In [m [/MN' [h1 h2] [h3 h4]]] /=.
  rewrite /pi h2 h3; split=> //; exact/(remapping_spec _ _ _ Hnd).
have lmI i : In i lm -> exists2 x, In x sel & x.1 = i.
  by rewrite -lmE => /in_map_iff [x [<- h]]; exists x.
exists r, lp, pi; split=> //.
- split; first by rewrite -lmE; apply: select_sorted.
  move=> i; split.
    move=> /lmI [x /selE [h1 _ h3 _] <-]; have [_ h5] := hM _ h1; split; first exact/ssrnat.ltP.
    by exists (List.nth x.1 M 0%N); [apply: nth_error_In h3|].
  move=> [/ssrnat.ltP hi [j hj ej]]; have [h4 h5] := hM _ hi.
  have jE : List.nth i M 0%N = j.
    have hjs := elimT ssrnat.ltP (Hlt _ hj).
    apply: (proj1 (NoDup_nth pr mid) ND) => //; last by rewrite h5.
  have [l hl] := In_nth_error _ _ hj.
  rewrite -lmE; apply/in_map_iff; exists (i, (l, vsub (List.nth i ct vzero) (List.nth j pt vzero))); split=> //.
  apply/select_In; exists j; split; [by rewrite MN // jE|split=> //]; exact/(remapping_spec _ _ _ Hnd).
- move=> i /lmI [x /selE [h1 _ h3 _] <-]; have [_ h5] := hM _ h1; split.
    by apply/ssrnat.ltP/(nth_error_Some lp (pi x.1)); rewrite h3.
  by rewrite (nth_error_nth _ _ _ h3).
apply: eq_map => A; congr purify_irrep_value; rewrite /adjust_one -lmE; congr Arr.
rewrite -[List.map fst sel]/(map fst sel) -map_comp.
suff H : forall s, (forall x, In x s -> In x sel) -> [seq np_exp E (Qopp (vdot pk x.2.2)) *: aget A x.2.1 | x <- s] =
   [seq (((fun i => np_exp E (Qopp (vdot pk (vsub (List.nth i ct vzero) (List.nth (List.nth (pi i) lp 0%N) pt vzero)))) *: aget A (pi i)) \o fst) x) | x <- s] by apply: H.
elim=> //= x s IH hs'; rewrite IH; last by move=> y hy; apply: hs'; right.
by have [_ -> h3 ->] := selE x (hs' x (or_introl erefl)); rewrite (nth_error_nth _ _ _ h3).
Qed.
Print Assumptions C74_from_primitive.
(** When moreover operations with the same rotation have the same flag, as in a magnetic group
    that is not grey and has no anti-unitary translation (types I and III), every returned
    conventional operation has the flag that is returned for its primitive operation. *)
Theorem C74_flags : forall (C : numClosedFieldType) (E : numpy C) (G : trig C) choice hall_symbol hall_number P L
    rots trans flags rots' trans' flags' k method rtol atol max_num X z U anti lm ok,
  size trans = size rots -> size flags = size rots -> size trans' = size rots' ->
  get_primitive_transformation_matrix choice hall_symbol hall_number = Ret P ->
  NoDup (List.map (transform_rotation P) rots) ->
  (forall r, In r rots' -> In (transform_rotation P r) (List.map (transform_rotation P) rots)) ->
  let all := (rots ++ rots')%list in let fl := (flags ++ flags')%list in
  (forall i j, (i < size all)%N -> (j < size all)%N ->
     transform_rotation P (List.nth i all mid) = transform_rotation P (List.nth j all mid) ->
     List.nth i fl false = List.nth j fl false) ->
  get_magnetic_spacegroup_spinor_irreps E G choice hall_symbol hall_number L all (trans ++ trans') fl
    k method rtol atol max_num = COk (X, z, U, anti, lm, ok) ->
  exists lp, [/\ Sorted.StronglySorted Nat.lt lp, forall j, In j lp -> (j < size rots)%N /\ In j lm,
    anti = List.map (fun j => List.nth j fl false) lp &
    forall i, In i lm -> exists2 x, (x < size lp)%N &
      transform_rotation P (List.nth i all mid) = transform_rotation P (List.nth (List.nth x lp 0%N) all mid) /\
      List.nth x anti false = List.nth i fl false].
Proof.
move=> C E G choice hs hn P L rots trans flags rots' trans' flags' k method rtol atol max_num X z U anti lm ok LT LF LT' HP ND HI all fl FC res.
have [r [lp [pi [H1 [_ _ -> _] [_ H3] H4 _]]]] := C74_from_primitive LT LF LT' HP ND HI res.
set pr := List.map _ rots in H1 H3 H4; set pt := List.map _ trans in H1; set cr := List.map _ _ in H3 H4.
have lpr : size pr = size rots by rewrite -![size _]/(List.length _) /pr !map_length.
have lpt : size pt = size pr by rewrite lpr -LT -![size _]/(List.length _) /pt !map_length.
have [Hs Hlt ->] := primitive_flags lpt H1; rewrite lpr in Hlt.
have la : size all = (size rots + size rots')%N by rewrite /all size_cat.
have prE j : (j < size rots)%N -> List.nth j pr mid = transform_rotation P (List.nth j all mid).
  move=> hj; rewrite /pr (nth_map_in _ _ _ mid); last exact/ssrnat.ltP.
  by rewrite /all app_nth1 //; exact/ssrnat.ltP.
have crE j : (j < size all)%N -> List.nth j cr mid = transform_rotation P (List.nth j all mid).
  by move=> hj; rewrite /cr (nth_map_in _ _ _ mid) //; exact/ssrnat.ltP.
have sc : size cr = size all by rewrite -![size _]/(List.length _) /cr !map_length.
have wide j : (j < size rots)%N -> (j < size all)%N by move=> h; rewrite la; apply: ltn_addr.
have flE j : (j < size rots)%N -> List.nth j flags false = List.nth j fl false.
  by move=> hj; rewrite /fl app_nth1 // -[List.length flags]/(size flags) LF; exact/ssrnat.ltP.
have aE : List.map (fun j => List.nth j flags false) lp = List.map (fun j => List.nth j fl false) lp.
  by apply: map_ext_in => j /Hlt /flE.
clear res H1; exists lp; split; [exact: Hs| |exact: aE|].
- move=> j hj; have hj' := Hlt _ hj; split; first exact: hj'.
  apply/H3; rewrite sc; split; first exact: (wide _ hj').
  by exists j; [exact: hj|rewrite (crE _ (wide _ hj')) (prE _ hj')].
- move=> i hi; have [h5 h6] := H4 _ hi; have [h7 _] := proj1 (H3 i) hi; rewrite sc in h7.
  exists (pi i); first exact: h5.
  have hp : In (List.nth (pi i) lp 0%N) lp by apply: nth_In; exact/ssrnat.ltP.
  have hp' := Hlt _ hp; rewrite (crE _ h7) (prE _ hp') in h6; split; first exact: h6.
  rewrite aE (nth_map_in _ _ _ 0%N); last exact/ssrnat.ltP.
  exact: (esym (FC _ _ h7 (wide _ hp') h6)).
Qed.
Print Assumptions C74_flags.

(** The documented length of anti_linear is that of the returned little group.  In a cell with
    one centring translation, where every rotation occurs twice, it is half of that. *)
Lemma doubled_sorted n lp : Sorted.StronglySorted Nat.lt lp -> (forall j, In j lp -> (j < n)%coq_nat) ->
  Sorted.StronglySorted Nat.lt (lp ++ List.map (Nat.add n) lp)%list.
Proof.
move=> Hs Hl; have S2 : Sorted.StronglySorted Nat.lt (List.map (Nat.add n) lp).
  elim: Hs => [|a l _ IH F] /=; first by constructor.
  constructor=> //; apply/Forall_forall => x /in_map_iff [y [<- hy]].
  by have := proj1 (Forall_forall _ _) F y hy; lia.
move: S2; have : forall x, In x (List.map (Nat.add n) lp) -> (n <= x)%coq_nat by move=> x /in_map_iff [y [<- _]]; lia.
move: (List.map _ _) => l2 H2 S2; elim: Hs Hl => [|a l _ IH F] Hl //=.
constructor; first by apply: IH => j hj; apply: Hl; right.
apply/Forall_forall => x /in_app_iff [hx|/H2 hx]; first exact: (proj1 (Forall_forall _ _) F).
by have := Hl a (or_introl erefl); lia.
Qed.
Theorem C74_anti_linear_length_refuted : forall (C : numClosedFieldType) (E : numpy C) (G : trig C) choice hall_symbol hall_number P L
    rots trans flags trans' flags' k method rtol atol max_num X z U anti lm ok,
  size trans = size rots -> size flags = size rots -> size trans' = size rots ->
  get_primitive_transformation_matrix choice hall_symbol hall_number = Ret P ->
  NoDup (List.map (transform_rotation P) rots) ->
  get_magnetic_spacegroup_spinor_irreps E G choice hall_symbol hall_number L (rots ++ rots) (trans ++ trans') (flags ++ flags')
    k method rtol atol max_num = COk (X, z, U, anti, lm, ok) ->
  size lm = (2 * size anti)%N /\ (lm <> [::] -> size anti <> size lm).
Proof.
move=> C E G choice hs hn P L rots trans flags trans' flags' k method rtol atol max_num X z U anti lm ok LT LF LT' HP ND res.
have HI r : In r rots -> In (transform_rotation P r) (List.map (transform_rotation P) rots) by apply: in_map.
have [r [lp [pi [H1 [_ _ -> _] [Hl H3] _ _]]]] := C74_from_primitive LT LF LT' HP ND HI res.
clear res; set pr := List.map _ rots in H1 H3 ND; set pt := List.map _ trans in H1; set cr := List.map _ _ in H3.
have lpr : size pr = size rots by rewrite -![size _]/(List.length _) /pr !map_length.
have lpt : size pt = size pr by rewrite lpr -LT -![size _]/(List.length _) /pt !map_length.
have [Hs Hlt ->] := primitive_flags lpt H1; clear H1.
have crE : cr = (pr ++ pr)%list by rewrite /cr List.map_app.
have sc : size cr = (size pr + size pr)%N by rewrite crE size_cat.
suff lmE : lm = (lp ++ List.map (Nat.add (size pr)) lp)%list.
  have sE : size lm = (2 * size (List.map (fun i => List.nth i flags false) lp))%N.
    by rewrite lmE -![size _]/(List.length _) app_length !map_length mul2n -addnn.
  split=> //; rewrite sE => nz e; apply: nz; apply: size0nil; rewrite sE.
  by move: e; rewrite mul2n -addnn; case: (size _) => // m /eqP; rewrite -{1}[m.+1]addn0 eqn_add2l.
apply: sorted_unique => //.
  by apply: doubled_sorted => // j /Hlt hj; exact/ssrnat.ltP.
have inj a b : (a < size pr)%N -> (b < size pr)%N -> List.nth a pr mid = List.nth b pr mid -> a = b.
  by move=> /ssrnat.ltP ha /ssrnat.ltP hb; apply: (proj1 (NoDup_nth pr mid) ND).
move=> i; rewrite H3 sc in_app_iff crE; split.
  move=> [hi [j hj]]; have hj' := Hlt _ hj; case: (ltnP i (size pr)) => hip.
    rewrite app_nth1; last exact/ssrnat.ltP.
    by move=> e; left; rewrite (inj _ _ hip hj' e).
  rewrite app_nth2; last exact/ssrnat.leP.
  move=> e; right; apply/in_map_iff; exists j; split=> //.
  have hi2 : (i - size pr < size pr)%N by rewrite ltn_subLR.
  by rewrite -(inj _ _ hi2 hj' e) -[Nat.add _ _]/(size pr + (i - size pr))%N subnKC.
case=> [hi|/in_map_iff [j [<- hj]]].
  have hi' := Hlt _ hi; split; first exact: ltn_addr.
  by exists i => //; rewrite app_nth1 //; exact/ssrnat.ltP.
have hj' := Hlt _ hj; split; first by rewrite -[Nat.add _ _]/(size pr + j)%N ltn_add2l.
exists j => //; rewrite app_nth2; last by rewrite -[List.length pr]/(size pr); lia.
by congr (List.nth _ _ _); rewrite -[List.length pr]/(size pr); lia.
Qed.
Print Assumptions C74_anti_linear_length_refuted.

(** Which operations are returned: those whose rotation fixes the k-point, with or without time
    reversal; at a time-reversal-invariant point these are the right ones. *)
Theorem C74_little_group : forall (C : numClosedFieldType) (E : numpy C) (G : trig C) choice hall_symbol hall_number P L
    rots trans flags rots' trans' flags' k D method rtol atol max_num X z U anti lm ok,
  size trans = size rots -> size flags = size rots -> size trans' = size rots' ->
  get_primitive_transformation_matrix choice hall_symbol hall_number = Ret P ->
  NoDup (List.map (transform_rotation P) rots) ->
  (forall r, In r rots' -> In (transform_rotation P r) (List.map (transform_rotation P) rots)) ->
  let all := (rots ++ rots')%list in let fl := (flags ++ flags')%list in let pk := transform_kpoint P k in
  has_denominator D pk -> Qle (inject_Z Z0) atol -> Qlt (Qmult (inject_Z (Zpos D)) atol) (inject_Z 1%coqZ) ->
  get_magnetic_spacegroup_spinor_irreps E G choice hall_symbol hall_number L all (trans ++ trans') fl
    k method rtol atol max_num = COk (X, z, U, anti, lm, ok) ->
  (forall i, In i lm <-> (i < size all)%N /\ fixes_kpoint pk (transform_rotation P (List.nth i all mid))) /\
  (vint (vadd pk pk) -> forall i, In i lm <->
     (i < size all)%N /\ mag_fixes_kpoint pk (transform_rotation P (List.nth i all mid), List.nth i fl false)).
Proof.
move=> C E G choice hs hn P L rots trans flags rots' trans' flags' k D method rtol atol max_num X z U anti lm ok LT LF LT' HP ND HI all fl pk HD A0 A1 res.
have [r [lp [pi [H1 _ [_ H3] _ _]]]] := C74_from_primitive LT LF LT' HP ND HI res.
clear res; set pr := List.map _ rots in H1 H3 ND HI; set pt := List.map _ trans in H1; set cr := List.map _ _ in H3.
have lpr : size pr = size rots by rewrite -![size _]/(List.length _) /pr !map_length.
have lpt : size pt = size pr by rewrite lpr -LT -![size _]/(List.length _) /pt !map_length.
have HL := ClaimsCorep.C54_little_group_ignores_time_reversal lpt HD A0 A1 H1; clear H1.
have sc : size cr = size all by rewrite -![size _]/(List.length _) /cr !map_length.
have crE j : (j < size all)%N -> List.nth j cr mid = transform_rotation P (List.nth j all mid).
  by move=> hj; rewrite /cr (nth_map_in _ _ _ mid) //; exact/ssrnat.ltP.
have main i : In i lm <-> (i < size all)%N /\ fixes_kpoint pk (transform_rotation P (List.nth i all mid)).
  rewrite H3 sc; split=> -[hi].
    by move=> [j /HL [_ fj] e]; split; [exact: hi|rewrite -(crE _ hi) e].
  rewrite -(crE _ hi) => fx; split; first exact: hi.
  have hin : In (List.nth i cr mid) pr.
    have : In (List.nth i all mid) all by apply: nth_In; exact/ssrnat.ltP.
    by rewrite (crE _ hi) => /in_app_iff [h|/HI //]; apply: in_map.
  have [j [hj ej]] := In_nth_lt _ _ mid hin; exists j; last by rewrite ej.
  by apply/HL; rewrite ej; split; [exact/ssrnat.ltP|exact: fx].
split; first exact: main.
move=> k2 i; have mi := main i; clear main H3 HL crE.
move: (transform_rotation P _) (List.nth i fl false) mi => R b mi; rewrite mi /mag_fixes_kpoint /fst /snd.
have bf := both_fix pk R k2; case: b; [by split=> -[h1 h2]; split; [exact: h1|apply/bf|exact: h1|apply/bf]|exact: iff_refl].
Qed.
Print Assumptions C74_little_group.

(** C2': a C-centred cell whose first two operations are those of the primitive cell. *)
Example C74_hypotheses_met : exists P, let two := Mat (-1) 0 0 0 1 0 0 0 (-1) in
  let rots := [:: mid; two] in let all := (rots ++ rots)%list in let fl := [:: false; true; false; true] in
  [/\ get_primitive_transformation_matrix "b1" "C 2y" 9 = Ret P, NoDup (List.map (transform_rotation P) rots),
      forall r, In r rots -> In (transform_rotation P r) (List.map (transform_rotation P) rots) &
      forall i j, (i < size all)%N -> (j < size all)%N ->
        transform_rotation P (List.nth i all mid) = transform_rotation P (List.nth j all mid) ->
        List.nth i fl false = List.nth j fl false].
Proof.
eexists; split; first by reflexivity.
- by repeat constructor; simpl; intuition discriminate.
- by move=> r; apply: in_map.
- move=> [|[|[|[|i]]]] [|[|[|[|j]]]] hi hj h; try exact: erefl; try discriminate hi; try discriminate hj; vm_compute in h; discriminate h.
Qed.
