(** Model of the transition between a cone and a shell, KegelKrempe (SR_Vessel/SR_hauptteile.py:988-1248): its own
    segments and the new segments of the parts it joins. *)
From Coq Require Import List Bool ZArith Arith.
From Verif Require Import Base Arith MPoint MLine MPoly MHeap MVessel.
Import ListNotations.
Local Open Scope num_scope.

Section Krempe.
Context {A : Arith}.
Notation poly := (list (seg A)).

(** What KegelKrempe reads of a Mantel or StandZarge (SR_hauptteile.py:615-626, 1295-1305) *)
Record mpart := mkmp { m_v : num; m_h : num; m_d0 : num; m_d1 : num; m_height : num; m_zarge : bool; m_segs : poly }.
(** SR_hauptteile.py:616-626, 1297-1305 (segments): the parts as constructed *)
Definition mantel (pos_v pos_h d0 d1 h : num) : mpart := mkmp pos_v pos_h d0 d1 h false (mantel_segments pos_v pos_h d0 d1 h).
Definition standzarge (pos_v pos_h d0 d1 h : num) : mpart := mkmp pos_v pos_h d0 d1 h true (standzarge_segments pos_v pos_h d0 d1 h).

(** What the constructor makes: the segments of the transition, and the new segments of the part above, of the
    cone and of the part below. *)
Record kresult := mkk { k_segs : poly; k_oben : poly; k_kegel : poly; k_unten : option poly }.

(** l[-1] *)
Definition last_of {X} (l : list X) : res X := match last_opt l with Some x => Ok x | None => Err IndexError end.
(** SR_hauptteile.py:1019: sorted by pos_v (stable); for one or two parts *)
Definition by_height (hts : list mpart) : list mpart :=
  match hts with [a; b] => if m_v b <? m_v a then [b; a] else [a; b] | l => l end.

(** SR_hauptteile.py:1086-1098: the arc on the right side.  KEGELKREMPE_SEGMENTS = 3; its Points get the identities 0 to 3.
    The moved copies have two different Points. *)
Definition krempe_arc (r : num) (oben kegel : mpart) : res (piece (A := A)) :=
  let axis := LineSegment (Point_new (m_h oben) (m_v oben)) (Point_new (m_h oben) (m_v oben + n1)) in
  lo <- get (m_segs oben) 0 ;;
  wo <- angle_between_lines axis lo ;;
  dx <- pdiv (nopp r) (ncos (nradians wo)) ;;
  let lo := seg_move dx n0 lo in
  lu <- get (m_segs kegel) 0 ;;
  wu <- angle_between_lines axis lu ;;
  dx <- pdiv (nopp r) (ncos (nradians wu)) ;;
  let lu := seg_move dx n0 lu in
  mp <- intersection_point lu lo ;;
  match mp with
  | Some c => arc (fun _ => c) 0 (px c) (py c) r (nofZ 360 - wu) (nofZ 360 - wo) 3 false
  | None => arc (fun _ => Point_new n0 n0) 0 n0 n0 r (nofZ 360 - wu) (nofZ 360 - wo) 3 false ;;; Err OtherException
  end.

(** SR_hauptteile.py:1134-1143: the point at the height pos_v + vpos on the line of the first segment *)
Definition cut_point (pos_v : num) (p : mpart) (vpos : option num) : res (option (pt A)) :=
  match vpos with
  | None => Ok None
  | Some v =>
    line <- get (m_segs p) 0 ;;
    let '((x0, x1), (y0, y1)) := bounding_box (m_segs p) in
    let far := nabs (nmax y0 y1) in
    let cutter := LineSegment (Point_new (nmin x0 x1 - far) (pos_v + v)) (Point_new (nmax x0 x1 + far) (pos_v + v)) in
    intersection_point cutter line
  end.

(** SR_hauptteile.py:264-274 (append), 1151-1152 (insert): the new Points get the identities 4 and 5. *)
Definition extend (x : piece (A := A)) (low high : option (pt A)) : res (piece (A := A)) :=
  let '(h, P) := x in
  let h := match high with Some q => halloc h 4 [q] | None => h end in
  P <- (match high with Some _ => happend_end P 4 | None => Ok P end) ;;
  let h := match low with Some q => halloc h 5 [q] | None => h end in
  P <- (match low with Some _ => happend_beginning P 5 | None => Ok P end) ;;
  Ok (h, P).

(** SR_hauptteile.py:1083-1160: the right side.  _graphrep is not modelled; nothing reads it. *)
Definition right_side (h_oben h_unten r : num) (oben kegel : mpart) : res (piece (A := A)) :=
  if n0 <? r then
    x <- krempe_arc r oben kegel ;;
    fp <- first_point (view (fst x) (hsegs (snd x))) ;;
    lp <- last_point (view (fst x) (hsegs (snd x))) ;;
    let du := nabs (m_v oben - py fp) in let dl := nabs (m_v oben - py lp) in
    let v0 := if du <? h_unten then Some (nopp (nmax h_unten du)) else None in
    let v1 := if dl <? h_oben then Some (nmax h_oben dl) else None in
    low <- cut_point (m_v oben) kegel v0 ;;
    high <- cut_point (m_v oben) oben v1 ;;
    extend x low high
  else if r =? n0 then
    assert_ (n0 <? h_unten) ;;; assert_ (n0 <? h_oben) ;;;
    low <- cut_point (m_v oben) kegel (Some (nopp h_unten)) ;;
    high <- cut_point (m_v oben) oben (Some h_oben) ;;
    so <- get (m_segs oben) 0 ;; sk <- get (m_segs kegel) 1 ;;
    match low, high with
    | Some a, Some b =>
      Ok (halloc (fun _ => a) 0 [a; si so; si sk; b], mkhp [mkh CLineSegment 0 1; mkh CLineSegment 2 3] false)
    | _, _ => Err AttributeError
    end
  else Err OtherException.

(** SR_hauptteile.py:1169-1173: is the point on the segment? *)
Definition on_part (p : mpart) (q : pt A) : res bool :=
  s <- get (m_segs p) 0 ;; b <- is_point_on_line s q ;; Ok (b && ls_is_internal_point s q).
Definition check_ends (oben kegel : mpart) (fp lp : pt A) : res unit :=
  e <- on_part kegel fp ;; z <- on_part kegel lp ;; assert_ (e || z) ;;;
  e <- on_part oben fp ;; z <- on_part oben lp ;; assert_ (e || z).

(** SR_hauptteile.py:1183-1190, 1194-1202, 1207-1221: the new segments of a part; [cls]: the class of the lower one *)
Definition four (cls : scls) (p1 p2 p3 p4 : pt A) : poly := [Wall p1 p2; NonWall p2 p3; Wall p3 p4; mkseg cls p4 p1].
Definition again (p : pt A) : pt A := Point_new (px p) (py p).

(** SR_hauptteile.py:1019-1024 and 1040-1056 (the constructor and its assertions), 1077-1248.  The parts are
    changed only after all checks.  If one part is given twice, the last change counts.  Renewing the graphs of the
    parts is modelled in MIntex.v.  [k_segs] are the segments before order() and purge() (1028-1029). *)
Definition kegelkrempe (h_oben h_unten r : num) (hts : list mpart) (kegel : mpart) : res kresult :=
  let hts := by_height hts in
  assert_ (Nat.leb 1 (length hts) && Nat.leb (length hts) 2) ;;;
  oben <- last_of hts ;;
  assert_ (m_d0 kegel <? m_d1 kegel) ;;;
  assert_ (n0 <? h_oben) ;;; assert_ (n0 <? h_unten) ;;;
  x <- right_side h_oben h_unten r oben kegel ;;
  let y := mirror_vertical (m_h oben) (fst x) (snd x) in
  let re := view (fst x) (hsegs (snd x)) in let li := view (fst y) (hsegs (snd y)) in
  r0 <- get re 0 ;; rn <- last_of re ;;
  check_ends oben kegel (si r0) (sj rn) ;;;
  l0 <- get li 0 ;; ln <- last_of li ;;
  let o := oben in
  let new_oben := four CNonWall (again (sj rn)) (Point_new (m_h o + m_d1 o / n2) (m_v o + m_height o))
                       (Point_new (m_h o - m_d1 o / n2) (m_v o + m_height o)) (again (sj ln)) in
  let foot (k : mpart) cls (p q : pt A) :=
    four cls (Point_new (m_h k + m_d0 k / n2) (m_v k)) (again p) (again q) (Point_new (m_h k - m_d0 k / n2) (m_v k)) in
  let new_kegel := foot kegel CNonWall (si r0) (si l0) in
  let new_unten := match hts with
                   | [u; _] => Some (foot u (if m_zarge u then CWall else CNonWall) (si rn) (si ln))
                   | _ => None
                   end in
  let walls := map (fun s => Wall (si s) (sj s)) in
  let closing := [NonWall (sj rn) (sj ln)] in
  let ret := if n0 <? r then walls re ++ closing ++ walls li ++ [NonWall (si l0) (si r0)]
             else walls re ++ closing ++ walls (rev li) ++ [NonWall (si l0) (si r0)] in
  Ok (mkk ret new_oben new_kegel new_unten).

(** SR_hauptteile.py:1028: the segments of the transition when it is finished.  purge() (1029 and 467) replaces Points by
    equal ones. *)
Definition krempe_part (k : kresult) : res (bool * poly) := order (k_segs k).
End Krempe.
#[global] Arguments mpart A : clear implicits.
#[global] Arguments kresult A : clear implicits.
