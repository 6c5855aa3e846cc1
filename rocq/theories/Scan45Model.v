(* Model of the sweep that computes boolean operations on sets of 45-degree polygons:
   class Scan45 of detail/boolean_op_45.hpp, for int coordinates, and the functions
   applyBoolean45OpOnVectors and applyUnary45OpOnVectors of polygon_45_set_data.hpp.

   Coordinates and counts are unbounded. The tests against UnitMax in scheduleCross0_ and
   scheduleCross1_ are left out: they drop crossing points beyond the range of the
   coordinates. The sets scanData_ and crossQueue_ are lists. The functors for one and for
   two operands are one function [keep] of a pair of counts; with one operand the second
   count is 0. scan is called once for each column of the input in the code, once for all
   columns here; the scan keeps its state between the calls. *)
From Verif Require Import Base Units Scan90Spec Poly90Spec Poly90Model ArbSpec Ins45Spec Ins45Model.

(* a result, the exception for crossings that are not on the grid, or what must not happen:
   a search in a set that is not in order, a write behind the end of an array, a loop that
   is not covered by the model *)
Inductive res (A : Type) : Type := Fine (a : A) | Throw | Bad.
Arguments Fine {A}. Arguments Throw {A}. Arguments Bad {A}.
Definition rbind {A B : Type} (r : res A) (f : A -> res B) : res B :=
  match r with Fine a => f a | Throw => Throw | Bad => Bad end.
Notation "'run' x <- e1 ; e2" := (rbind e1 (fun x => e2)) (at level 200, x name, e1 at level 100, e2 at level 200).
Notation "'run' ' p <- e1 ; e2" := (rbind e1 (fun p => e2)) (at level 200, p strict pattern, e1 at level 100, e2 at level 200).

(* Count2, boolean_op_45.hpp:17-62 *)
Definition cnt2 : Type := (Z * Z)%type.
Definition cz : cnt2 := (0, 0).
Definition cadd (a b : cnt2) : cnt2 := (fst a + fst b, snd a + snd b).
Definition csub (a b : cnt2) : cnt2 := (fst a - fst b, snd a - snd b).
Definition ceqb (a b : cnt2) : bool := (fst a =? fst b) && (snd a =? snd b).

(* Scan45ElementT, 97-115 *)
Record elem : Type := mk_el { e_x : Z; e_y : Z; e_rise : Z; e_cnt : cnt2 }.
Definition ev (e : elem) (x : Z) : Z := e_y e + e_rise e * (x - e_x e).
(* Scan45Vertex: a point and four counts *)
Record event : Type := mk_ev { n_pt : point; n_0 : cnt2; n_1 : cnt2; n_2 : cnt2; n_3 : cnt2 }.
(* Vertex45: a point, the rise, a count *)
Definition out45 : Type := (point * (Z * Z))%type.

Fixpoint span {A : Type} (f : A -> bool) (l : list A) : list A * list A :=
  match l with
  | [] => ([], [])
  | a :: l' => if f a then let (u, v) := span f l' in (a :: u, v) else ([], l)
  end.
Fixpoint last_opt {A : Type} (l : list A) : option A :=
  match l with [] => None | [a] => Some a | _ :: l' => last_opt l' end.
(* the count above the elements of a list, d if there are none *)
Fixpoint lastc (d : cnt2) (l : list elem) : cnt2 :=
  match l with [] => d | e :: l' => lastc (e_cnt e) l' end.

(* ---------- crossings ---------- *)
(* new points of crossQueue_: they must lie ahead, see [advance] *)
Definition ahead (x : Z) (ps : list point) : res (list point) :=
  if forallb (fun p => x <? px p) ps then Fine ps else Bad.
(* scheduleCross0_ and scheduleCross1_, 792-835, called by findCross_ for an element and the
   next one above it *)
Definition sched (x : Z) (lo hi : elem) : res (list point) :=
  let y1 := ev hi x in let y2 := ev lo x in
  if (e_rise lo =? 1) && (e_rise hi =? -1) then
    let delta := y1 - y2 in
    if Z.odd delta then
      if delta =? 1 then Throw
      else ahead x [mk_pt (x + Z.quot delta 2) (y2 + Z.quot delta 2); mk_pt (x + Z.quot delta 2) (y2 + Z.quot delta 2 + 1)]
    else ahead x [mk_pt (x + Z.quot delta 2) (y2 + Z.quot delta 2)]
  else if (e_rise lo =? 1) && (e_rise hi =? 0) then ahead x [mk_pt (x + Z.abs (y1 - y2)) y1]
  else if (e_rise lo =? 0) && (e_rise hi =? -1) then ahead x [mk_pt (x + Z.abs (y2 - y1)) y2]
  else Fine [].
(* findCross_, 837-872 *)
Definition find_cross (x : Z) (below : option elem) (e : elem) (above : option elem) : res (list point) :=
  run a <- match below with Some b => sched x b e | None => Fine [] end;
  run b <- match above with Some h => sched x e h | None => Fine [] end;
  Fine (a ++ b).
(* lookUp_, 874-877: the elements below y at x, and the others. The set must be in order *)
Definition lower (x y : Z) (L : list elem) : res (list elem * list elem) :=
  let (lo, hi) := span (fun a => ev a x <? y) L in
  if forallb (fun a => y <=? ev a x) hi then Fine (lo, hi) else Bad.
(* lessScan45Element with justBefore_ = false, 164-190 *)
Definition less_el (x : Z) (a b : elem) : bool := (ev a x <? ev b x) || (ev a x =? ev b x) && (e_rise a <? e_rise b).
(* std::set::insert: the elements below, the new one (or one that is equivalent to it), the
   elements above *)
Definition set_insert (x : Z) (e : elem) (L : list elem) : res (list elem * elem * list elem) :=
  let (l1, l2) := span (fun a => less_el x a e) L in
  if forallb (less_el x e) l2 then Fine (l1, e, l2)
  else match l2 with
       | a :: l2' => if negb (less_el x e a) && forallb (less_el x e) l2' then Fine (l1, a, l2') else Bad
       | [] => Bad
       end.

(* crossQueue_ as a list without order: the least abscissa, the ordinates at an abscissa in
   ascending order, each once *)
Fixpoint q_min (Q : list point) : option Z :=
  match Q with
  | [] => None
  | p :: Q' => Some (match q_min Q' with Some m => Z.min (px p) m | None => px p end)
  end.
Fixpoint ins_y (y : Z) (l : list Z) : list Z :=
  match l with
  | [] => [y]
  | z :: l' => if y <? z then y :: l else if y =? z then l else z :: ins_y y l'
  end.
Definition q_ys (x : Z) (Q : list point) : list Z := fold_right (fun p l => if px p =? x then ins_y (py p) l else l) [] Q.

Section scan.
  (* applyLogic<op>, 369-388 and 405-422 *)
  Context (keep : cnt2 -> bool).

  (* the output functors, 390-403 and 424-437, with applyLogic of two counts, 359-368 *)
  Definition emit (c1 c2 : cnt2) (p : point) (rise : Z) (high : bool) : list out45 :=
    let t := if keep c1 && negb (keep c2) then -1 else if negb (keep c1) && keep c2 then 1 else 0 in
    if t =? 0 then [] else [(p, (rise, t * (if high then 1 else -1)))].

  (* ---------- advance_, 564-656 ---------- *)
  (* count[index] = c for index = rise + 1 down to 0 *)
  Definition set_down (r : Z) (c : cnt2) (k : cnt2 * cnt2 * cnt2) : cnt2 * cnt2 * cnt2 :=
    let '(k0, k1, k2) := k in
    (if 0 <=? r + 1 then c else k0, if 1 <=? r + 1 then c else k1, if 2 <=? r + 1 then c else k2).
  Definition derive (p : point) (cb : cnt2) (G : list elem) : event :=
    let '(k0, k1, k2) := fold_left (fun k e => set_down (e_rise e) (e_cnt e) k) G (cb, cb, cb) in
    mk_ev p (csub k0 k1) (csub k1 k2) (csub k2 cb) cz.
  Fixpoint emit_group (p : point) (cur : cnt2) (G : list elem) : list out45 :=
    match G with
    | [] => []
    | e :: G' => emit cur (e_cnt e) p (e_rise e) false ++ emit_group p (e_cnt e) G'
    end.
  (* one crossing point: output, crossVector_, the ordinate if the elements there are to be
     erased, points to be scheduled *)
  Definition cross_at (x : Z) (L : list elem) (y : Z) : res (list out45 * list event * list Z * list point) :=
    run '(lo, hi) <- lower x y L;
    let (G, U) := span (fun a => ev a x =? y) hi in
    match G with
    | [] => Fine ([], [], [], [])
    | [e] => run ps <- find_cross x (last_opt lo) e (hd_error U); Fine ([], [], [], ps)
    | _ :: _ :: _ :: _ :: _ => Bad
    | _ => let cb := lastc cz lo in Fine (emit_group (mk_pt x y) cb G, [derive (mk_pt x y) cb G], [y], [])
    end.
  Fixpoint cross_all (x : Z) (L : list elem) (ys : list Z) : res (list out45 * list event * list Z * list point) :=
    match ys with
    | [] => Fine ([], [], [], [])
    | y :: ys' =>
        run '(o, cv, er, ps) <- cross_at x L y;
        run '(o', cv', er', ps') <- cross_all x L ys';
        Fine (o ++ o', cv ++ cv', er ++ er', ps ++ ps')
    end.
  (* the elements that are not erased, and whether the next one is erased: searchVec *)
  Fixpoint marks (gone : elem -> bool) (L : list elem) : list (elem * bool) :=
    match L with
    | [] => []
    | a :: l => if gone a then marks gone l else (a, match l with b :: _ => gone b | [] => false end) :: marks gone l
    end.
  Fixpoint search (x : Z) (prev : option elem) (M : list (elem * bool)) : res (list point) :=
    match M with
    | [] => Fine []
    | (a, fl) :: M' =>
        run ps <- (if fl : bool then find_cross x prev a (hd_error (map fst M')) else Fine []);
        run ps' <- search x (Some a) M';
        Fine (ps ++ ps')
    end.
  (* the points at x are taken off the queue; no point at x is added meanwhile, [ahead] *)
  Definition advance (x : Z) (L : list elem) (Q : list point) : res (list out45 * list event * list elem * list point) :=
    run '(o, cv, er, ps) <- cross_all x L (q_ys x Q);
    let M := marks (fun a => existsb (Z.eqb (ev a x)) er) L in
    run ps' <- search x None M;
    Fine (o, cv, map fst M, ps' ++ ps ++ filter (fun p => negb (px p =? x)) Q).

  (* mergeCross_, 658-683 *)
  Fixpoint merge_cross (cv ins : list event) : list event :=
    match cv with
    | [] => ins
    | c :: cv' => let (a, b) := span (fun w => py (n_pt w) <? py (n_pt c)) ins in a ++ c :: merge_cross cv' b
    end.

  (* ---------- processEvent_, 685-790 ---------- *)
  Definition ev_add (w u : event) : event :=
    mk_ev (n_pt w) (cadd (n_0 w) (n_0 u)) (cadd (n_1 w) (n_1 u)) (cadd (n_2 w) (n_2 u)) (cadd (n_3 w) (n_3 u)).
  (* events at the same point, 706-712 *)
  Fixpoint gather (w : event) (l : list event) : event * list event :=
    match l with
    | u :: l' => if py (n_pt u) =? py (n_pt w) then gather (ev_add w u) l' else (w, l)
    | [] => (w, [])
    end.
  (* countAt[i] = c for i = rise + 1 up to 2 *)
  Definition set_up (r : Z) (c : cnt2) (k : cnt2 * cnt2 * cnt2) : cnt2 * cnt2 * cnt2 :=
    let '(k0, k1, k2) := k in
    (if r + 1 <=? 0 then c else k0, if r + 1 <=? 1 then c else k1, if r + 1 <=? 2 then c else k2).
  (* the elements that come to the point from the left, 742-761 *)
  Fixpoint eat (x : Z) (p : point) (below : option elem) (cur : cnt2) (k : cnt2 * cnt2 * cnt2) (G U : list elem) : res (list out45 * (cnt2 * cnt2 * cnt2) * list point) :=
    match G with
    | [] => Fine ([], k, [])
    | e :: G' =>
        let o := if pt_eqb (mk_pt (e_x e) (e_y e)) p then [] else emit cur (e_cnt e) p (e_rise e) false in
        run ps <- match G' ++ U with [] => Fine [] | n :: m => find_cross x below n (hd_error m) end;
        run '(o', k', ps') <- eat x p below (e_cnt e) (set_up (e_rise e) (e_cnt e) k) G' U;
        Fine (o ++ o', k', ps ++ ps')
    end.
  (* a new element, 774-787 *)
  Definition put (x : Z) (p : point) (rise : Z) (cb n : cnt2) (L : list elem) : res (list elem * list point * list out45) :=
    if ceqb n cb then Fine (L, [], [])
    else
      run '(l1, e, l2) <- set_insert x (mk_el (px p) (py p) rise n) L;
      run ps <- find_cross x (last_opt l1) e (hd_error l2);
      Fine (l1 ++ e :: l2, ps, emit cb n p rise true).
  Definition step (x : Z) (L : list elem) (v : cnt2) (prev : point) (w : event) : res (list elem * list point * list out45 * option elem) :=
    let p := n_pt w in
    let s0 := cadd v (n_0 w) in let s1 := cadd s0 (n_1 w) in let s2 := cadd s1 (n_2 w) in
    run '(lo, hi) <- lower x (py p) L;
    let cb := lastc cz lo in
    let (G, U) := span (fun a => ev a x =? py p) hi in
    let cur := csub cb v in
    let o1 := if ceqb v cz then [] else emit cur cb prev 2 true ++ emit cur cb p 2 false in
    run '(o2, k, ps) <- eat x p (last_opt lo) cur (cur, cur, cur) G U;
    let '(k0, k1, k2) := k in
    let n0 := cadd s0 k0 in let n1 := cadd s1 k1 in let n2 := cadd s2 k2 in
    run '(L0, p0, q0) <- put x p (-1) cb n0 (lo ++ U);
    run '(L1, p1, q1) <- put x p 0 n0 n1 L0;
    run '(L2, p2, q2) <- put x p 1 n1 n2 L1;
    Fine (L2, p2 ++ p1 ++ p0 ++ ps, o1 ++ o2 ++ q0 ++ q1 ++ q2, hd_error U).
  (* the loop. [nxt] is prevIter, None for the end of the set *)
  Fixpoint process (fuel : nat) (x : Z) (L : list elem) (v : cnt2) (prev : point) (nxt : option elem) (evs : list event) : res (list elem * list point * list out45) :=
    match evs with
    | [] => Fine (L, [], [])
    | w :: evs' =>
        match fuel with
        | O => Bad
        | S fuel' =>
            let '(vertex, rest) :=
              match nxt with
              | Some e =>
                  if negb (ceqb v cz) && (ev e x <? py (n_pt w)) then (mk_ev (mk_pt x (ev e x)) cz cz cz cz, evs) else gather w evs'
              | None => gather w evs'
              end in
            run '(L1, ps, o, nxt') <- step x L v prev vertex;
            run '(L2, ps', o') <- process fuel' x L1 (cadd v (n_3 vertex)) (n_pt vertex) nxt' rest;
            Fine (L2, ps' ++ ps, o ++ o')
        end
    end.

  (* scan, 512-559. A column of the input is taken in the iteration that moves x_ to it: if
     there are no crossings at this column the code takes it in the next iteration *)
  Fixpoint scan (fuel : nat) (L : list elem) (Q : list point) (ins : list event) : res (list out45) :=
    match ins with
    | [] => Fine []
    | w :: _ =>
        match fuel with
        | O => Bad
        | S fuel' =>
            let x := match q_min Q with Some m => Z.min (px (n_pt w)) m | None => px (n_pt w) end in
            run '(o1, cv, K, Q1) <- advance x L Q;
            let (col, rest) := if x =? px (n_pt w) then span (fun u => px (n_pt u) =? x) ins else ([], ins) in
            let evs := merge_cross cv col in
            run '(L1, ps, o2) <- process (length evs + length K + 1) x K cz (mk_pt 0 0) None evs;
            run o3 <- scan fuel' L1 (ps ++ Q1) rest;
            Fine (o1 ++ o2 ++ o3)
        end
    end.
  (* the number of columns bounds the number of iterations *)
  Definition scan_all (ins : list event) : res (list out45) :=
    match ins with
    | [] => Fine []
    | w :: _ => scan (Z.to_nat (px (n_pt (last ins w)) - px (n_pt w) + 1)) [] [] ins
    end.
End scan.
