(** * TrackedInterval objects with shared arrays

    [IntervalModel] treats a tracked interval as a value.  Here the Python objects are
    modelled with references: numpy arrays and lists live in a heap, an object holds
    addresses, and in-place updates write the heap.  The operations are the ones the solver
    performs (yroots/ChebyshevSubdivisionSolver.py, lines 404-566 and the attribute
    assignments of getSubdivisionIntervals and solvePolyRecursive). *)
From Coq Require Import List Arith Bool ZArith.
From Verif Require Import Num Tensor PolySpec TransformModel IntervalModel.
Import ListNotations.

Section Model.
  Context {T : Type} {NT : Num T}.

  (** 2-column float arrays; lists of transforms; 1-D arrays; lists of points.  Address = index. *)
  Record heap := mkH { hb : list (box T); hl : list (list (box T)); hp : list (list T); hd : list (list (list T)) }.

  Record obj := mkO {
    rTop : nat; rIvl : nat;             (* addresses in hb *)
    rTrs : nat;                         (* address in hl *)
    rPts : nat;                         (* address in hp *)
    rDup : nat;                         (* address in hd *)
    oEmpty : bool; oFin : bool; oThr : bool; oExtra : bool;
    rPre : option (nat * nat)           (* preFinalInterval (hb), preFinalTransforms (hl), once set *)
  }.

  Record state := mkS { hp_ : heap; objs : list obj }.

  Inductive op :=
  | ONew (b : box T)                    (* TrackedInterval(array), lines 404-414 *)
  | OCopy (i : nat)                     (* copy(), lines 528-542 *)
  | OAdd (i : nat) (sub : box T)        (* addTransform, lines 420-454 *)
  | OStart (i : nat)                    (* startFinalStep, lines 562-566 *)
  | OSetNext (i d : nat) (v : T)        (* x.nextTransformPoints[d] = v, lines 1124-1125 *)
  | OSetIvl (i : nat) (b : box T)       (* x.interval = np.array(..), line 1356 *)
  | OAddDups (i : nat) (l : list (list T))  (* x.possibleDuplicateRoots += l, lines 1291-1294 *)
  | OEmpty (i : nat)                    (* x.empty = True *)
  | OThrow (i : nat)                    (* x.canThrowOutFinalStep = True *)
  | OExtra (i : nat).                   (* x.possibleExtraRoot = True *)

  Definition dobj : obj := mkO 0 0 0 0 0 false false false false None.
  Definition ob (s : state) (i : nat) : obj := nth i (objs s) dobj.
  Definition rdb (h : heap) (a : nat) : box T := nth a (hb h) [].
  Definition rdl (h : heap) (a : nat) : list (box T) := nth a (hl h) [].
  Definition rdp (h : heap) (a : nat) : list T := nth a (hp h) [].
  Definition rdd (h : heap) (a : nat) : list (list T) := nth a (hd h) [].
  Definition wrb (h : heap) a v := mkH (upd (hb h) a v) (hl h) (hp h) (hd h).
  Definition wrl (h : heap) a v := mkH (hb h) (upd (hl h) a v) (hp h) (hd h).
  Definition wrp (h : heap) a v := mkH (hb h) (hl h) (upd (hp h) a v) (hd h).
  Definition wrd (h : heap) a v := mkH (hb h) (hl h) (hp h) (upd (hd h) a v).
  (** allocation: the new address is the old length *)
  Definition alb (h : heap) v := mkH (hb h ++ [v]) (hl h) (hp h) (hd h).
  Definition all_ (h : heap) v := mkH (hb h) (hl h ++ [v]) (hp h) (hd h).
  Definition alp (h : heap) v := mkH (hb h) (hl h) (hp h ++ [v]) (hd h).
  Definition ald (h : heap) v := mkH (hb h) (hl h) (hp h) (hd h ++ [v]).

  (** what one sees when reading object [o] *)
  Definition view (h : heap) (o : obj) : tint T :=
    mkTint (rdb h (rTop o)) (rdb h (rIvl o)) (rdl h (rTrs o)) (oEmpty o) (oFin o) (oThr o) (rdd h (rDup o)) (oExtra o)
      (rdp h (rPts o))
      (match rPre o with Some (a, _) => rdb h a | None => [] end)
      (match rPre o with Some (_, l) => rdl h l | None => [] end).

  Definition exec (s : state) (c : op) : state :=
    let h := hp_ s in
    match c with
    | ONew b =>
        (* topInterval and interval are the same array (lines 405-406) *)
        let h1 := alb h b in let h2 := all_ h1 [] in
        let h3 := alp h2 (repeat (nlit 394555475981047 10000000000000000) (length b)) in
        let h4 := ald h3 [] in
        mkS h4 (objs s ++ [mkO (length (hb h)) (length (hb h)) (length (hl h)) (length (hp h)) (length (hd h))
                               false false false false None])
    | OCopy i =>
        let o := ob s i in
        (* newone = TrackedInterval(self.topInterval): the top array is shared *)
        let h1 := alb h (rdb h (rIvl o)) in
        let h2 := all_ h1 (rdl h (rTrs o)) in
        let h3 := alp h2 (rdp h (rPts o)) in
        let h4 := ald h3 (if oFin o then rdd h (rDup o) else []) in
        match oFin o, rPre o with
        | true, Some (a, l) =>
            let h5 := alb h4 (rdb h a) in
            let h6 := all_ h5 (rdl h l) in
            mkS h6 (objs s ++ [mkO (rTop o) (length (hb h)) (length (hl h)) (length (hp h)) (length (hd h))
                                   (oEmpty o) true (oThr o) (oExtra o) (Some (S (length (hb h)), S (length (hl h))))])
        | _, _ =>
            mkS h4 (objs s ++ [mkO (rTop o) (length (hb h)) (length (hl h)) (length (hp h)) (length (hd h))
                                   (oEmpty o) (oFin o) (if oFin o then oThr o else false) (if oFin o then oExtra o else false) None])
        end
    | OAdd i sub =>
        let o := ob s i in
        let t := addTransform (view h o) sub in
        if anyInverted sub && canThrowOut (view h o) then
          mkS h (upd (objs s) i (mkO (rTop o) (rIvl o) (rTrs o) (rPts o) (rDup o) true (oFin o) (oThr o) (oExtra o) (rPre o)))
        else
          (* self.transforms.append and self.interval[dim][i] = ... write in place *)
          mkS (wrl (wrb h (rIvl o) (ivl t)) (rTrs o) (trs t)) (objs s)
    | OStart i =>
        let o := ob s i in
        let h1 := alb h (rdb h (rIvl o)) in
        let h2 := all_ h1 (rdl h (rTrs o)) in
        mkS h2 (upd (objs s) i (mkO (rTop o) (rIvl o) (rTrs o) (rPts o) (rDup o) (oEmpty o) true (oThr o) (oExtra o)
                                    (Some (length (hb h), length (hl h)))))
    | OSetNext i d v =>
        let o := ob s i in mkS (wrp h (rPts o) (upd (rdp h (rPts o)) d v)) (objs s)
    | OSetIvl i b =>
        let o := ob s i in
        mkS (alb h b) (upd (objs s) i (mkO (rTop o) (length (hb h)) (rTrs o) (rPts o) (rDup o) (oEmpty o) (oFin o) (oThr o) (oExtra o) (rPre o)))
    | OAddDups i l =>
        let o := ob s i in mkS (wrd h (rDup o) (rdd h (rDup o) ++ l)) (objs s)
    | OEmpty i =>
        let o := ob s i in
        mkS h (upd (objs s) i (mkO (rTop o) (rIvl o) (rTrs o) (rPts o) (rDup o) true (oFin o) (oThr o) (oExtra o) (rPre o)))
    | OThrow i =>
        let o := ob s i in
        mkS h (upd (objs s) i (mkO (rTop o) (rIvl o) (rTrs o) (rPts o) (rDup o) (oEmpty o) (oFin o) true (oExtra o) (rPre o)))
    | OExtra i =>
        let o := ob s i in
        mkS h (upd (objs s) i (mkO (rTop o) (rIvl o) (rTrs o) (rPts o) (rDup o) (oEmpty o) (oFin o) (oThr o) true (rPre o)))
    end.

  Definition s0 : state := mkS (mkH [] [] [] []) [].
  Definition run (l : list op) : state := fold_left exec l s0.
  Definition views (s : state) : list (tint T) := map (view (hp_ s)) (objs s).

  (** The same history on values (no sharing), with the functions of [IntervalModel]. *)
  Definition dtint : tint T := newInterval [].
  Definition fexec (l : list (tint T)) (c : op) : list (tint T) :=
    let at_ i f := upd l i (f (nth i l dtint)) in
    match c with
    | ONew b => l ++ [newInterval b]
    | OCopy i => l ++ [copyT (nth i l dtint)]
    | OAdd i sub => at_ i (fun t => addTransform t sub)
    | OStart i => at_ i startFinalStep
    | OSetNext i d v => at_ i (fun t => setNext t (upd (npts t) d v))
    | OSetIvl i b => at_ i (fun t => setInterval t b)
    | OAddDups i p => at_ i (fun t => setDups t (dups t ++ p))
    | OEmpty i => at_ i setEmpty
    | OThrow i => at_ i setCanThrow
    | OExtra i => at_ i setExtra
    end.
  Definition frun (l : list op) : list (tint T) := fold_left fexec l [].

  (** Histories the solver produces: operations name existing objects, and addTransform is only
      called on an object obtained by copy() (or whose interval array was replaced), never on one
      just built by TrackedInterval(..).  [dir]: which objects still have interval = topInterval. *)
  Definition target (c : op) : option nat :=
    match c with
    | ONew _ => None
    | OCopy i | OAdd i _ | OStart i | OSetNext i _ _ | OSetIvl i _ | OAddDups i _ | OEmpty i | OThrow i | OExtra i => Some i
    end.
  Fixpoint disciplined (dir : list bool) (l : list op) : Prop :=
    match l with
    | [] => True
    | c :: l' =>
        match target c with None => True | Some i => i < length dir end /\
        match c with
        | ONew _ => disciplined (dir ++ [true]) l'
        | OCopy _ => disciplined (dir ++ [false]) l'
        | OAdd i _ => nth i dir true = false /\ disciplined dir l'
        | OSetIvl i _ => disciplined (upd dir i false) l'
        | _ => disciplined dir l'
        end
    end.
End Model.
Arguments op : clear implicits.
Arguments state : clear implicits.
Arguments heap : clear implicits.
