(* Model of line_intersection, detail/scan_arbitrary.hpp, and of
   intersect_segments, segment_utils.hpp, for int coordinates: the segments are
   split at the points of the integer grid that they pass and that hold an end
   point or an intersection of segments.

   Fewer than 2^31 segments are assumed, so that the ids fit in an int. Sorting
   is insertion sort: the orders are total. *)
From Verif Require Import Base Units Outcome Scan90Spec Poly90Spec Poly90Model Set90Spec Set90Model GeoSpec IvlModel RectModel SegModel PolyModel ScanBaseModel.

(* ---------- std::set<Point>, std::sort, std::unique ---------- *)
Fixpoint set_insert (p : point) (l : list point) : list point :=
  match l with
  | [] => [p]
  | q :: l' => if pt_less p q then p :: l else if pt_less q p then q :: set_insert p l' else l
  end.
Section sorting.
  Context {A : Type} (less : A -> A -> bool).
  Fixpoint sort_insert (a : A) (l : list A) : list A :=
    match l with [] => [a] | b :: l' => if less b a then b :: sort_insert a l' else a :: l end.
  Definition sorted (l : list A) : list A := fold_right sort_insert [] l.
End sorting.
(* a sequence without consecutive duplicates *)
Fixpoint unique_pts (l : list point) : list point :=
  match l with
  | [] => []
  | p :: l' => match unique_pts l' with
               | [] => [p]
               | q :: r => if pt_eqb p q then q :: r else p :: q :: r
               end
  end.

(* a half edge with a segment id *)
Definition entry : Type := (seg * Z)%type.
(* std::pair operator<, on half edges and on entries *)
Definition seg_pair_less (s t : seg) : bool :=
  pt_less (s_low s) (s_low t) || (negb (pt_less (s_low t) (s_low s)) && pt_less (s_high s) (s_high t)).
Definition entry_less (a b : entry) : bool :=
  seg_pair_less (fst a) (fst b) || (negb (seg_pair_less (fst b) (fst a)) && (snd a <? snd b)).

(* the vector of sets of points, by id; the ids are checked to be in range in
   scan_sets below *)
Definition ptsets : Type := Z -> list point.
Definition add_pt (ips : ptsets) (id : Z) (p : point) : ptsets :=
  fun i => if i =? id then set_insert p (ips i) else ips i.

(* ---------- validate_scan(intersection_points, begin, end, min_y), 152-227 ---------- *)
(* 158-162 *)
Definition he_order (e : entry) : entry :=
  if pt_less (s_high (fst e)) (s_low (fst e)) then (mk_seg (s_high (fst e)) (s_low (fst e)), snd e) else e.
Definition ys_from (min_y : Z) (s : seg) : bool := (py (s_low s) >=? min_y) && (py (s_high s) >=? min_y).
(* the inner loop, 179-200; the order of pts does not matter before it is sorted *)
Fixpoint vs_inner (min_y : Z) (outer : entry) (inner : list entry) (pts : list point) (ips : ptsets) : outcome (list point * ptsets) :=
  match inner with
  | [] => Ok (pts, ips)
  | e :: inner' =>
      let he1 := fst outer in
      let he2 := fst e in
      if ys_from min_y he1 || ys_from min_y he2 then
        if seg_eqb he1 he2 then vs_inner min_y outer inner' pts ips
        else if Z.min (px (s_low he2)) (px (s_high he2)) >=? Z.max (px (s_high he1)) (px (s_low he1)) then Ok (pts, ips)
        else if pt_eqb (s_low he1) (s_low he2) || pt_eqb (s_high he1) (s_high he2) then vs_inner min_y outer inner' pts ips
        else
          try c <- sb_compute_intersection he1 he2;
          match c with
          | None => vs_inner min_y outer inner' pts ips
          | Some p => vs_inner min_y outer inner' (p :: pts) (add_pt (add_pt ips (snd e) p) (snd outer) p)
          end
      else vs_inner min_y outer inner' pts ips
  end.
(* the outer loop, 166-201 *)
Fixpoint vs_outer (min_y : Z) (data : list entry) (pts : list point) (ips : ptsets) : outcome (list point * ptsets) :=
  match data with
  | [] => Ok (pts, ips)
  | e :: data' =>
      let pts1 := filter (fun p => py p >=? min_y) (ips (snd e)) ++ s_high (fst e) :: s_low (fst e) :: pts in
      try ' (pts2, ips2) <- vs_inner min_y e data pts1 ips;
      vs_outer min_y data' pts2 ips2
  end.
(* the points that the segment e passes, 222-225 *)
Fixpoint vs_pass (e : entry) (stop : Z) (l : list point) (ips : ptsets) : outcome ptsets :=
  match l with
  | [] => Ok ips
  | p :: l' =>
      if px p <=? stop then
        try g <- sb_grid p (fst e);
        vs_pass e stop l' (if g then add_pt ips (snd e) p else ips)
      else Ok ips
  end.
Fixpoint drop_before (x : Z) (l : list point) : list point :=
  match l with [] => [] | p :: l' => if px p <? x then drop_before x l' else l end.
Definition pt_min (p q : point) : point := if pt_less q p then q else p.
Definition pt_max (p q : point) : point := if pt_less p q then q else p.
(* 206-226; finger is the part of the points from lfinger on *)
Fixpoint vs_points (data : list entry) (finger : list point) (ips : ptsets) : outcome ptsets :=
  match data with
  | [] => Ok ips
  | e :: data' =>
      let startpt := pt_min (s_low (fst e)) (s_high (fst e)) in
      let stoppt := pt_max (s_low (fst e)) (s_high (fst e)) in
      let finger' := drop_before (px startpt) finger in
      try ips1 <- vs_pass e (px stoppt) finger' ips;
      vs_points data' finger' ips1
  end.
Definition vs_bin (min_y : Z) (bin : list entry) (ips : ptsets) : outcome ptsets :=
  let data := sorted entry_less (map he_order bin) in
  try ' (pts, ips1) <- vs_outer min_y data [] ips;
  vs_points data (unique_pts (sorted pt_less pts)) ips1.

(* ---------- the division into horizontal bins, 70-145 ---------- *)
(* y, number of segments at y, number of segments that end below; the numbers
   are std::size_t *)
Record hist : Type := mk_hist { h_y : Z; h_at : Z; h_done : Z }.
Definition usize (z : Z) : Z := Z.modulo z (2 ^ 64).
Definition end_less (a b : Z * Z) : bool := (fst a <? fst b) || ((fst a =? fst b) && (snd a <? snd b)).
Definition seg_ends (e : entry) : list (Z * Z) :=
  let a := py (s_low (fst e)) in
  let b := py (s_high (fst e)) in
  let count := if a <? b then 1 else -1 in
  [(a, count); (b, - count)].
(* the loop 82-89; the histogram is reversed, its head is histogram.back() *)
Definition hist_add (h : hist) (c : Z) : hist :=
  mk_hist (h_y h) (usize (h_at h + c)) (if c <? 0 then usize (h_done h - c) else h_done h).
Fixpoint hist_loop (ends : list (Z * Z)) (back : hist) (rest : list hist) : list hist :=
  match ends with
  | [] => back :: rest
  | (y, c) :: ends' =>
      if y =? h_y back then hist_loop ends' (hist_add back c) rest
      else hist_loop ends' (hist_add (mk_hist y (h_at back) (h_done back)) c) (back :: rest)
  end.
(* compute_histogram_in_y, 70-90; ends.front() of no segments is undefined *)
Definition histogram_in_y (data : list entry) : outcome (list hist) :=
  match sorted end_less (flat_map seg_ends data) with
  | [] => Undefined
  | (y, c) :: ends => Ok (rev (hist_loop ((y, c) :: ends) (mk_hist y 0 0) []))
  end.
(* compute_y_cuts, 92-116. The scan for the cut, 101-110: position, the least
   number so far, the cut so far *)
Fixpoint cut_scan (size : nat) (position : nat) (l : list hist) (min_cut : Z) (cut : nat) (cut_size : nat) : nat * nat :=
  match l with
  | [] => (cut, cut_size)
  | h :: l' =>
      if Nat.ltb position (Nat.div size 3) then cut_scan size (S position) l' min_cut cut cut_size
      else if Nat.ltb (size - position) (Nat.div size 3) then (cut, cut_size)
      else if h_at h <? min_cut then cut_scan size (S position) l' (h_at h) position position
      else cut_scan size (S position) l' min_cut cut cut_size
  end.
Fixpoint y_cuts (fuel : nat) (l : list hist) (size : Z) : outcome (list Z) :=
  match fuel with
  | O => Undefined
  | S fuel' =>
      match l with
      | [] => Ok []
      | _ =>
          if size <? 30 then Ok []
          else
            let '(cut, cut_size) := cut_scan (length l) 0 l size 0 0 in
            match nth_error l cut with
            | None => Undefined
            | Some c =>
                if Nat.eqb cut_size 0 || (h_at c >? size / 9) then Ok []
                else
                  try left <- y_cuts fuel' (firstn cut l) (usize (h_at c + h_done c));
                  try right <- y_cuts fuel' (skipn cut l) (usize (size - h_done c));
                  Ok (left ++ h_y c :: right)
            end
      end
  end.
(* the bins, 124-140: the segment goes to the bins lower_bound(min) - 1 to
   upper_bound(max) - 1 *)
Definition lower_bound (keys : list Z) (y : Z) : nat := length (filter (fun k => k <? y) keys).
Definition upper_bound (keys : list Z) (y : Z) : nat := length (filter (fun k => k <=? y) keys).
Definition in_bin (keys : list Z) (j : nat) (e : entry) : bool :=
  let lb := lower_bound keys (Z.min (py (s_low (fst e))) (py (s_high (fst e)))) in
  let ub := upper_bound keys (Z.max (py (s_low (fst e))) (py (s_high (fst e)))) in
  Nat.leb (Nat.pred lb) j && Nat.ltb j ub.
Fixpoint vs_bins (keys : list Z) (data : list entry) (j : nat) (cuts : list Z) (ips : ptsets) : outcome ptsets :=
  match cuts with
  | [] => Ok ips
  | c :: cuts' =>
      try ips1 <- vs_bin c (filter (in_bin keys j) data) ips;
      vs_bins keys data (S j) cuts' ips1
  end.
(* validate_scan_divide_and_conquer, 118-145 *)
Definition scan_bins (data : list entry) (ips : ptsets) : outcome ptsets :=
  try hs <- histogram_in_y data;
  match hs with
  | [] => Undefined
  | h0 :: _ =>
      try cuts <- y_cuts (S (length hs)) hs (usize (Z.of_nat (length data)));
      let keys := h_y h0 :: cuts in
      try ips1 <- vs_bin INT_MIN (filter (in_bin keys 0) data) ips;
      vs_bins keys data 1 cuts ips1
  end.

(* ---------- segment_edge and segment_intersections, 334-373 ---------- *)
(* less_point_down_slope, 319-333 *)
Definition down_less (p q : point) : bool := (px p <? px q) || ((px p =? px q) && (py p >? py q)).
(* ++next of an empty range is undefined *)
Fixpoint chain (p : point) (l : list point) (id : Z) : list entry :=
  match l with [] => [] | q :: l' => (mk_seg p q, id) :: chain q l' id end.
Definition segment_edge (l : list point) (id : Z) : outcome (list entry) :=
  match l with [] => Undefined | p :: l' => Ok (chain p l' id) end.
Definition segment_pieces (e : entry) (pts : list point) : outcome (list entry) :=
  let he := fst e in
  try x1 <- chk (px (s_low he) + 1);
  let hpt := mk_pt x1 (py (s_low he)) in
  if negb (sb_vertical he) && eu_less_slope (s_low he) (s_high he) hpt then segment_edge (sorted down_less pts) (snd e)
  else segment_edge pts (snd e).
Fixpoint segment_intersections (data : list entry) (ips : ptsets) : outcome (list entry) :=
  match data with
  | [] => Ok []
  | e :: data' =>
      try a <- segment_pieces e (ips (snd e));
      try b <- segment_intersections data' ips;
      Ok (a ++ b)
  end.
(* validate_scan(output_segments, begin, end), 260-267; an id that is not an
   index of the vector of sets is undefined *)
Definition ids_ok (data : list entry) : bool :=
  forallb (fun e => (0 <=? snd e) && (snd e <? Z.of_nat (length data))) data.
Definition validate_scan (data : list entry) : outcome (list entry) :=
  if ids_ok data then
    try ips <- scan_bins data (fun _ => []);
    segment_intersections data ips
  else Undefined.

(* verify_scan, 282-317: true if no two segments intersect *)
Fixpoint verify_inner (he1 : seg) (inner : list entry) : bool :=
  match inner with
  | [] => true
  | e :: inner' =>
      let he2 := fst e in
      if seg_eqb he1 he2 then verify_inner he1 inner'
      else if Z.min (px (s_low he2)) (px (s_high he2)) >? Z.max (px (s_high he1)) (px (s_low he1)) then true
      else if sb_intersects he1 he2 then false
      else verify_inner he1 inner'
  end.
Fixpoint verify_outer (data : list entry) : bool :=
  match data with
  | [] => true
  | e :: data' => verify_inner (fst e) data && verify_outer data'
  end.
Definition verify_scan (data : list entry) : bool := verify_outer (sorted entry_less (map he_order data)).

(* ---------- intersect_segments, segment_utils.hpp:24-73 and 75-125 ---------- *)
Fixpoint number_from (i : Z) (l : list seg) : list entry :=
  match l with [] => [] | s :: l' => (s, i) :: number_from (i + 1) l' end.
(* what is appended to the result: pieces with the index of their segment *)
Definition intersect_segments (l : list seg) : outcome (list entry) :=
  match l with [] => Ok [] | _ => validate_scan (number_from 0 l) end.
