open Model
let o x = Obj.magic x
let rec pos2f = function XH -> 1.0 | XO p -> 2.0 *. pos2f p | XI p -> 2.0 *. pos2f p +. 1.0
let z2f = function Z0 -> 0.0 | Zpos p -> pos2f p | Zneg p -> -. (pos2f p)
let rec i2pos n = if n = 1 then XH else if n land 1 = 0 then XO (i2pos (n/2)) else XI (i2pos (n/2))
let i2n n = if n = 0 then N0 else Npos (i2pos n)
let hil (lo:float) hi mn mx =
  let v = floor (65535.0 *. ((mn +. mx) /. 2.0 -. lo) /. (hi -. lo)) in
  if v >= 0.0 && v < 4294967296.0 then Some (i2n (int_of_float v)) else None
let ordf : ordOps = { xltb = o (fun (a:float) b -> a < b); xinf = o infinity; xninf = o neg_infinity; xhil = o hil }
let fl : realOps = {
  tlit = (fun z p -> o (z2f z /. pos2f p));
  tadd = o ( +. ); tsub = o ( -. ); tmul = o ( *. ); tdiv = o ( /. ); topp = o (fun x -> -. x); tabs = o abs_float; tsqrt = o sqrt; tfloor = o floor;
  tltb = o (fun (a:float) b -> a < b); tleb = o (fun (a:float) b -> a <= b); teqb = o (fun (a:float) b -> a = b);
  tsin = o sin; tcos = o cos; ttan = o tan; tatan = o atan; tacos = o acos; tatan2 = o atan2; tpi = o (4.0 *. atan 1.0);
  tofnat = (fun n -> o (float_of_int n)); tceilnat = o (fun x -> let c = ceil x in if c >= 0.0 && c < 1e18 then Some (int_of_float c) else None);
  ord = ordf; inj = o (fun (x:float) -> x); xsubt = o ( -. ); xaddt = o ( +. ); xsqrt = o sqrt }
let sl = insertionStd
let v (x:float) (y:float) (b:float) : vertex = { pos = { vx = o x; vy = o y }; bulge = o b }
let pl c l = { isClosed = c; vertexes = List.map (fun (x,y,b) -> v x y b) l }
let f : t -> float = o
let fails = ref 0 and oks = ref 0
let check name b = if b then incr oks else (incr fails; Printf.printf "FAIL %s\n" name)
let eps = 1e-5
let fe a b = abs_float (a -. b) < eps
let props p = let b = getExtents fl p in
  (List.length p.vertexes, f (getArea fl p), f (getPathLength fl p), (o b.bMinX:float), (o b.bMinY:float), (o b.bMaxX:float), (o b.bMaxY:float))
let eqp ig (n,a,l,x,y,x2,y2) (n',a',l',x',y',x2',y2') = n = n' && (if ig then fe (abs_float a) (abs_float a') else fe a a') && fe l l' && fe x x' && fe y y' && fe x2 x2' && fe y2 y2'
let rec rem p = function [] -> None | x :: l -> if p x then Some l else (match rem p l with None -> None | Some l -> Some (x :: l))
let rec unord ig xs ys = match xs with [] -> ys = [] | x :: xs -> (match rem (eqp ig x) ys with None -> false | Some ys -> unord ig xs ys)
let show (n,a,l,x,y,x2,y2) = Printf.printf "   %d %.10g %.10g %.10g %.10g %.10g %.10g\n" n a l x y x2 y2
let get name = function Ok a -> a | UB -> Printf.printf "UB %s\n" name; incr fails; raise Exit | Fuel -> Printf.printf "FUEL %s\n" name; incr fails; raise Exit
let tryit g = try g () with Exit -> ()
let off name delta p exp = tryit (fun () ->
  List.iter (fun flag ->
  let r = get name (parallelOffset fl sl p (o (delta:float)) flag) in
  let r = List.map props r in
  let ok = unord false r exp in check (name ^ string_of_bool flag) ok; if not ok then (List.iter show r; print_endline "  exp"; List.iter show exp)) [false];
  let rp = invertDirection fl p in
  let rp = if p.isClosed then rp else { rp with vertexes = rp.vertexes } in
  let r = get (name ^ "_rev") (parallelOffset fl sl rp (o (-. delta)) false) in
  let r = List.map props r in
  let exp = List.map (fun (n,a,l,x,y,x2,y2) -> (n,-. a,l,x,y,x2,y2)) exp in
  let ok = unord false r exp in check (name ^ "_rev") ok; if not ok then (List.iter show r; print_endline "  exp"; List.iter show exp))
let comb name mode a b exp expS = tryit (fun () ->
  let r = get name (combinePolylines fl sl a b mode) in
  let x = List.map props r.remaining and y = List.map props r.subtracted in
  let ok = unord true x exp && unord true y expS in check name ok; if not ok then (List.iter show x; print_endline "  sub"; List.iter show y))
let self name p =
  tryit (fun () -> let r = get name (combinePolylines fl sl p p Union) in check (name ^ "union") (r.remaining = [p] && r.subtracted = []));
  tryit (fun () -> let r = get name (combinePolylines fl sl p p Exclude) in check (name ^ "ex") (r.remaining = [] && r.subtracted = []));
  tryit (fun () -> let r = get name (combinePolylines fl sl p p Intersect) in check (name ^ "int") (r.remaining = [p] && r.subtracted = []));
  tryit (fun () -> let r = get name (combinePolylines fl sl p p XOR) in check (name ^ "xor") (r.remaining = [] && r.subtracted = []))
let vfe (a:vertex) (b:vertex) = fe (f a.pos.vx) (f b.pos.vx) && fe (f a.pos.vy) (f b.pos.vy) && fe (f a.bulge) (f b.bulge)
let rot l = match l with [] -> [] | x :: t -> t @ [x]
let rec anyrot k l m = k > 0 && (List.for_all2 vfe l m || anyrot (k-1) (rot l) m)
let vleq closed l m = List.length l = List.length m && (if closed then anyrot (List.length l) l m else List.for_all2 vfe l m)
let () =
  off "just_past" 0.1 (pl true [27.804688,1.,0.;28.46842055794889,0.3429054695163245,0.;32.34577133994935,0.9269762697003898,0.;32.38116957207762,1.451312562563487,0.;31.5,1.,-0.31783751349740424;30.79289310940682,1.5,0.;29.20710689059337,1.5,-0.31783754777018053;28.49999981323106,1.00000000000007,0.0])
    [4,0.094833810726263,1.8213211761499,31.533345690439,0.90572346564886,32.26949555256,1.2817628453883; 6,1.7197931450343,7.5140262005179,28.047835685678,0.44926177903859,31.495431966272,1.4];
  off "ontop" 0.25 (pl true [27.804688,1.,0.;27.804688,0.75,0.;32.195313,0.75,0.;32.195313,1.,0.;31.5,1.,-0.3178375134974;30.792893109407,1.5,0.;29.207106890593,1.5,-0.31783754777018;28.499999813231,1.0000000000001,0.])
    [4,0.36247092523069,3.593999211522,29.16143806012,1.,30.838561906052,1.25];
  off "collapsed" 30. (pl true [0.,0.,0.;120.,0.,0.;120.,40.,0.;0.,40.,0.]) [];
  let rect = pl true [0.,0.,0.;20.,0.,0.;20.,10.,0.;0.,10.,0.] and orect = pl false [0.,0.,0.;20.,0.,0.;20.,10.,0.;0.,10.,0.;0.,0.,0.] in
  off "rect_in" 2. rect [4,96.,44.,2.,2.,18.,8.];
  off "orect_in" 2. orect [5,0.,44.,2.,2.,18.,8.];
  off "rect_out" (-2.) rect [8,332.56637061436,72.566370614359,-2.,-2.,22.,12.];
  off "orect_out" (-2.) orect [8,0.,69.424777960769,-2.,-2.,22.,12.];
  off "rect_coinc" 5. rect [2,0.,20.,5.,5.,15.,5.];
  let dia = pl true [-10.,0.,0.;0.,10.,0.;10.,0.,0.;0.,-10.,0.] and odia = pl false [-10.,0.,0.;0.,10.,0.;10.,0.,0.;0.,-10.,0.;-10.,0.,0.] in
  off "dia_in" (-5.) dia [4,-17.157287525381,16.568542494924,-2.9289321881345,-2.9289321881345,2.9289321881345,2.9289321881345];
  off "odia_in" (-5.) odia [5,0.,16.568542494924,-2.9289321881345,-2.9289321881345,2.9289321881345,2.9289321881345];
  off "dia_out" 5. dia [8,-561.38252881436,87.984469030822,-15.,-15.,15.,15.];
  off "odia_out" 5. odia [8,0.,80.130487396847,-13.535533905933,-15.,15.,15.];
  let a = pl true [0.,1.,1.;10.,1.,1.] and b = pl true [3.,-10.,0.;6.,-10.,0.;6.,10.,0.;3.,10.,0.] in
  comb "cr_union" Union a b [10,109.15381629282,52.324068506275,0.,-10.,10.,10.] [];
  comb "cr_excl" Exclude a b [3,29.336980664548,23.492343031178,6.,-3.8989794855664,10.,5.898979485566356; 3,19.816835628274,20.757946197186,0.,-3.582575694955841,3.,5.5825756949558] [];
  comb "cr_int" Intersect a b [4,29.386000046924,25.091858029623,3.,-4.,6.,6.] [];
  comb "cr_xor" XOR a b [3,19.816835628274,20.757946197186,0.,-3.582575694955841,3.,5.5825756949558; 4,-18.306999976538,18.582818653767,3.,-10.,6.,-3.5825756949558; 3,29.336980664548,23.492343031178,6.,-3.8989794855664,10.,5.898979485566356; 4,-12.306999976538,14.582818653767,3.,5.5825756949558,6.,10.] [];
  let a = pl true [-0.105,0.235,0.;-0.095,0.235,0.;-0.095,0.,-1.;-0.105,0.,0.] in
  let q = -0.414214 in
  let b = pl true [-0.25,0.235,q;-0.255,0.24,0.;-0.255,0.29,q;-0.25,0.295,0.;0.25,0.295,q;0.255,0.29,0.;0.255,0.24,q;0.25,0.235,0.] in
  comb "c1_union" Union a b [12,-0.032967809756574,1.6071238962168,-0.255,-0.005,0.255,0.295] [];
  comb "c1_exA" Exclude a b [4,-0.0023892699081699,0.49570796326795,-0.105,-0.005,-0.095,0.235] [];
  comb "c1_exB" Exclude b a [10,-0.030578539848405,1.1314159329489,-0.255,0.235,0.255,0.295] [];
  comb "c1_int" Intersect a b [] [];
  comb "c1_xor" XOR a b [4,-0.0023892699081699,0.49570796326795,-0.105,-0.005,-0.095,0.235; 10,0.030578539848405,1.1314159329489,-0.255,0.235,0.255,0.295] [];
  let a = pl true [0.,0.,0.;0.,20.,0.;20.,20.,0.;20.,0.,0.] in
  let b = pl true [-2.,10.,0.;-2.,20.,0.;2.,20.,0.;2.,25.,0.;4.,25.,0.;4.,20.,0.;6.,20.,0.;6.,15.,0.;8.,15.,0.;8.,20.,0.;10.,40.,0.;30.,40.,0.;30.,20.,0.] in
  comb "c2_union" Union a b [16,-865.,150.17204220292,-2.,0.,30.,40.] [];
  comb "c2_exA" Exclude a b [4,-275.,68.4538182678,0.,0.,20.,16.875;4,-10.,14.,6.,15.,8.,20.] [];
  comb "c2_exB" Exclude b a [4,-19.375,23.47038182678,-2.,10.,0.,20.;6,-435.625,85.701660376142,8.,16.875,30.,40.;4,-10.,14.,2.,20.,4.,25.] [];
  comb "c2_int" Intersect a b [10,-115.,63.4538182678,0.,10.625,20.,20.] [];
  comb "c2_xor" XOR a b [4,-19.375,23.47038182678,-2.,10.,0.,20.;6,-435.625,85.701660376142,8.,16.875,30.,40.;4,-10.,14.,2.,20.,4.,25.;4,275.,68.4538182678,0.,0.,20.,16.875;4,10.,14.,6.,15.,8.,20.] [];
  let k = 0.414214 in
  let p = pl true [27.554688,1.,0.;27.554688,0.75,k;27.804688,0.5,0.;32.195313,0.5,k;32.445313,0.75,0.;32.445313,1.,k;32.195313,1.25,0.;31.5,1.25,-.k;31.,1.75,0.;29.,1.75,-.k;28.5,1.25,0.;27.804688,1.25,k] in
  self "self" p; self "selfrev" (invertDirection fl p);
  let rp = invertDirection fl p in
  comb "revex" Exclude rp p [] []; comb "revxor" XOR rp p [] []; comb "revex2" Exclude p rp [] []; comb "revxor2" XOR p rp [] [];
  let wn name p (x,y) e = let z = getWindingNumber fl p {vx=o x;vy=o y} in check (Printf.sprintf "%s wind %g %g" name x y) (z2f z = float_of_int e) in
  let cp name p (x,y) (ex,ey) d ei = tryit (fun () -> let r = get name (closestPoint fl p {vx=o (x:float);vy=o (y:float)}) in
    check (Printf.sprintf "%s closest %g %g" name x y) (fe (f r.cpPoint.vx) ex && fe (f r.cpPoint.vy) ey && fe (o r.cpDistance) d && (ei < 0 || ei = r.cpIndex))) in
  let onv name p = List.iteri (fun i (w:vertex) -> let n = List.length p.vertexes in let e = if i < n-1 then i else if p.isClosed then n-1 else n-2 in
     cp name p (f w.pos.vx, f w.pos.vy) (f w.pos.vx, f w.pos.vy) 0. e) p.vertexes in
  let pi = 4.0 *. atan 1.0 in
  let circ r (cx,cy) vs dir name =
    let p = pl true vs in
    let d = float_of_int dir in
    check (name ^ "props") (eqp false (props p) (2, d *. pi *. r *. r, 2. *. pi *. r, cx-.r, cy-.r,cx+.r,cy+.r));
    List.iter (fun (x,y,e) -> wn name p (x,y) e) [cx-.r-.0.01,cy,0;cx+.r+.0.01,cy,0;cx,cy-.r-.0.01,0;cx,cy+.r+.0.01,0;cx,cy,dir;cx-.r+.0.01,cy,dir;cx+.r-.0.01,cy,dir;cx,cy-.r+.0.01,dir;cx,cy+.r-.0.01,dir];
    onv name p;
    cp name p (cx-.0.1,cy) (cx-.r,cy) (r-.0.1) (-1); cp name p (cx+.0.1,cy) (cx+.r,cy) (r-.0.1) (-1);
    cp name p (cx,cy-.0.1) (cx,cy-.r) (r-.0.1) (-1); cp name p (cx,cy+.0.1) (cx,cy+.r) (r-.0.1) (-1);
    for i = 0 to 3 do let a = pi/.4. +. float_of_int i *. pi /. 2. in
      let pt m = (cx +. m *. cos a, cy +. m *. sin a) in
      wn name p (pt (0.33*.r)) dir; wn name p (pt (1.5*.r)) 0; cp name p (pt (0.33*.r)) (pt r) (0.67*.r) (-1); cp name p (pt (1.5*.r)) (pt r) (0.5*.r) (-1) done;
    let sc m = List.map (fun (x,y,b) -> v (cx +. (x-.cx)*.m) (cy +. (y-.cy)*.m) b) vs in
    List.iter (fun (delta,m) -> tryit (fun () -> match get name (parallelOffset fl sl p (o (delta:float)) false) with [q] -> check (name ^ "off") (q.isClosed && vleq true q.vertexes (sc m)) | l -> Printf.printf "%d res " (List.length l); check (name ^ "off#") false)) [ (-. d *. 0.25 *. r, 1.25); (d*.0.5*.r,0.5)];
    List.iter (fun m -> tryit (fun () -> match get name (parallelOffset fl sl p (o (d*.m*.r)) false) with [] -> check (name ^ "col") true | _ -> check (name ^ "col") false)) [1.;1.5;2.];
    self name p in
  List.iter (fun (cx,cy) -> List.iter (fun rv -> List.iter (fun (nm,vs) ->
    let vs = if rv then List.rev vs else vs in
    circ 5. (cx,cy) vs 1 nm; circ 5. (cx,cy) (List.map (fun (x,y,b) -> (x,y,-. b)) vs) (-1) (nm ^ "cw"))
    [ "x",[cx-.5.,cy,1.;cx+.5.,cy,1.]; "y",[cx,cy-.5.,1.;cx,cy+.5.,1.]; "n",[cx+.5.*.cos(pi/.4.),cy+.5.*.sin(pi/.4.),1.;cx+.5.*.cos(5.*.pi/.4.),cy+.5.*.sin(5.*.pi/.4.),1.]]) [false;true]) [1.,1.;-1.,1.;-1.,-1.;1.,-1.];
  (* half circles *)
  let half r (cx,cy) cl xal dir =
    let name = Printf.sprintf "half %g %g %b %b %d" cx cy cl xal dir in
    let d = float_of_int dir in
    let vs = if xal then [cx-.r,cy,d;cx+.r,cy,0.] else [cx,cy-.r,d;cx,cy+.r,0.] in
    let p = pl cl vs in
    let mnx = ref (cx-.r) and mny = ref (cy-.r) and mxx = ref (cx+.r) and mxy = ref (cy+.r) in
    (if dir > 0 then (if xal then mxy := !mxy -. r else mnx := !mnx +. r) else (if xal then mny := !mny +. r else mxx := !mxx -. r));
    check (name ^ "props") (eqp false (props p) (2, (if cl then d *. pi *. r *. r /. 2. else 0.), pi *. r +. (if cl then 2.*.r else 0.), !mnx, !mny,!mxx,!mxy));
    let wi = if cl then dir else 0 in
    List.iter (fun (x,y,e) -> wn name p (x,y) e) [!mnx-.0.01,cy,0; !mxx+.0.01,cy,0;cx,!mny-.0.01,0;cx,!mxy+.0.01,0];
    if xal then (wn name p (cx,!mny+.0.01) wi; wn name p (cx,!mxy-.0.01) wi) else (wn name p (!mnx+.0.01,cy) wi; wn name p (!mxx-.0.01,cy) wi);
    onv name p;
    let ei = if cl then 1 else 0 in
    if xal then begin
      cp name p (!mnx-.0.01,cy) (!mnx,cy) 0.01 0; cp name p (!mxx+.0.01,cy) (!mxx,cy) 0.01 ei;
      let my = if dir > 0 then !mny else !mxy in
      cp name p (cx,my-.0.01) (cx,my) 0.01 0; cp name p (cx,my+.0.01) (cx,my) 0.01 0;
      if cl then (cp name p (cx,cy-.0.01) (cx,cy) 0.01 1; cp name p (cx,cy+.0.01) (cx,cy) 0.01 1)
    end else begin
      cp name p (cx,!mny-.0.01) (cx,!mny) 0.01 0; cp name p (cx,!mxy+.0.01) (cx,!mxy) 0.01 ei;
      let my = if dir > 0 then !mxx else !mnx in
      cp name p (my-.0.01,cy) (my,cy) 0.01 0; cp name p (my+.0.01,cy) (my,cy) 0.01 0;
      if cl then (cp name p (cx-.0.01,cy) (cx,cy) 0.01 1; cp name p (cx+.0.01,cy) (cx,cy) 0.01 1)
    end;
    let od = -. d *. 0.25 *. r and id = d *. 0.4 *. r in
    let ao = abs_float od and ai = abs_float id in
    let sc m = List.map (fun (x,y,b) -> v (cx +. (x-.cx)*.m) (cy +. (y-.cy)*.m) b) vs in
    let rb = tan (pi /. 8.) in
    let outv = sc 1.25 in
    let inv = sc 0.6 in
    let outv = if not cl then outv else
      let setb l b = match l with [a;c] -> [a;{c with bulge = o (b:float)}] | l -> l in
      let b = d *. rb in
      setb outv b @ (if xal then (let y = if dir > 0 then cy +. ao else cy -. ao in [v !mxx y 0.; v !mnx y b])
                     else (let x = if dir > 0 then cx -. ao else cx +. ao in [v x !mxy 0.; v x !mny b])) in
    let ang (x,y) = atan2 (y-.cy) (x-.cx) in
    let absb p1 p2 = let a = ang p1 -. ang p2 in let a = mod_float (a +. pi) (2.*.pi) -. pi in abs_float (tan (a /. 4.)) in
    let inv = if not cl then inv else
      let rr = r -. ai in
      if xal then let y = if dir > 0 then cy -. ai else cy +. ai in let root = sqrt (rr*.rr -. (y-.cy)*.(y-.cy)) in
        let p1 = (cx+.root,y) and p2 = (cx-.root,y) in [v (fst p1) y 0.; v (fst p2) y (d *. absb p1 p2)]
      else let x = if dir > 0 then cx +. ai else cx -. ai in let root = sqrt (rr*.rr -. (x-.cx)*.(x-.cx)) in
        let p1 = (x,cy+.root) and p2 = (x,cy-.root) in [v x (snd p1) 0.; v x (snd p2) (d *. absb p1 p2)] in
    List.iter (fun (delta,e) -> tryit (fun () -> match get name (parallelOffset fl sl p (o (delta:float)) false) with [q] -> check (name ^ "off") (q.isClosed = cl && vleq cl q.vertexes e) | l -> Printf.printf "%d res " (List.length l); check (name ^ "off#") false)) [od,outv;id,inv];
    List.iter (fun m -> tryit (fun () -> match get name (parallelOffset fl sl p (o (d*.m*.r)) false) with [] -> check (name ^ "col") true | _ -> check (name ^ "col") false)) [(if cl then 0.5 else 1.);1.5;2.];
    if cl then self name p in
  List.iter (fun c -> List.iter (fun cl -> List.iter (fun xal -> List.iter (fun dir -> half 5. c cl xal dir) [1;-1]) [true;false]) [false;true]) [1.,1.;-1.,1.;-1.,-1.;1.,-1.];
  Printf.printf "ok %d fail %d\n" !oks !fails
