open Model
let o x = Obj.magic x
let data = [(8.0,62.0,11.0,66.0);(57.0,17.0,57.0,19.0);(76.0,26.0,79.0,29.0);(36.0,56.0,38.0,56.0);(92.0,77.0,96.0,80.0);(87.0,70.0,90.0,74.0);(43.0,41.0,47.0,43.0);(0.0,58.0,2.0,62.0);(76.0,86.0,80.0,89.0);(27.0,13.0,27.0,15.0);(71.0,63.0,75.0,67.0);(25.0,2.0,27.0,2.0);(87.0,6.0,88.0,6.0);(22.0,90.0,23.0,93.0);(22.0,89.0,22.0,93.0);(57.0,11.0,61.0,13.0);(61.0,55.0,63.0,56.0);(17.0,85.0,21.0,87.0);(33.0,43.0,37.0,43.0);(6.0,1.0,7.0,3.0);(80.0,87.0,80.0,87.0);(23.0,50.0,26.0,52.0);(58.0,89.0,58.0,89.0);(12.0,30.0,15.0,34.0);(32.0,58.0,36.0,61.0);(41.0,84.0,44.0,87.0);(44.0,18.0,44.0,19.0);(13.0,63.0,15.0,67.0);(52.0,70.0,54.0,74.0);(57.0,59.0,58.0,59.0);(17.0,90.0,20.0,92.0);(48.0,53.0,52.0,56.0);(92.0,68.0,92.0,72.0);(26.0,52.0,30.0,52.0);(56.0,23.0,57.0,26.0);(88.0,48.0,88.0,48.0);(66.0,13.0,67.0,15.0);(7.0,82.0,8.0,86.0);(46.0,68.0,50.0,68.0);(37.0,33.0,38.0,36.0);(6.0,15.0,8.0,18.0);(85.0,36.0,89.0,38.0);(82.0,45.0,84.0,48.0);(12.0,2.0,16.0,3.0);(26.0,15.0,26.0,16.0);(55.0,23.0,59.0,26.0);(76.0,37.0,79.0,39.0);(86.0,74.0,90.0,77.0);(16.0,75.0,18.0,78.0);(44.0,18.0,45.0,21.0);(52.0,67.0,54.0,71.0);(59.0,78.0,62.0,78.0);(24.0,5.0,24.0,8.0);(64.0,80.0,64.0,83.0);(66.0,55.0,70.0,55.0);(0.0,17.0,2.0,19.0);(15.0,71.0,18.0,74.0);(87.0,57.0,87.0,59.0);(6.0,34.0,7.0,37.0);(34.0,30.0,37.0,32.0);(51.0,19.0,53.0,19.0);(72.0,51.0,73.0,55.0);(29.0,45.0,30.0,45.0);(94.0,94.0,96.0,95.0);(7.0,22.0,11.0,24.0);(86.0,45.0,87.0,48.0);(33.0,62.0,34.0,65.0);(18.0,10.0,21.0,14.0);(64.0,66.0,67.0,67.0);(64.0,25.0,65.0,28.0);(27.0,4.0,31.0,6.0);(84.0,4.0,85.0,5.0);(48.0,80.0,50.0,81.0);(1.0,61.0,3.0,61.0);(71.0,89.0,74.0,92.0);(40.0,42.0,43.0,43.0);(27.0,64.0,28.0,66.0);(46.0,26.0,50.0,26.0);(53.0,83.0,57.0,87.0);(14.0,75.0,15.0,79.0);(31.0,45.0,34.0,45.0);(89.0,84.0,92.0,88.0);(84.0,51.0,85.0,53.0);(67.0,87.0,67.0,89.0);(39.0,26.0,43.0,27.0);(47.0,61.0,47.0,63.0);(23.0,49.0,25.0,53.0);(12.0,3.0,14.0,5.0);(16.0,50.0,19.0,53.0);(63.0,80.0,64.0,84.0);(22.0,63.0,22.0,64.0);(26.0,66.0,29.0,66.0);(2.0,15.0,3.0,15.0);(74.0,77.0,77.0,79.0);(64.0,11.0,68.0,11.0);(38.0,4.0,39.0,8.0);(83.0,73.0,87.0,77.0);(85.0,52.0,89.0,56.0);(74.0,60.0,76.0,63.0);(62.0,66.0,65.0,67.0)]
let tier1 = [(0.,1.,45.,24.);(6.,26.,50.,67.);(0.,58.,50.,93.);(23.,50.,70.,89.);(59.,60.,96.,95.);(51.,13.,89.,59.);(57.,4.,88.,13.)]
let nodes = [[(6.,1.,7.,3.);(2.,15.,3.,15.);(0.,17.,2.,19.);(7.,22.,11.,24.);(6.,15.,8.,18.);(18.,10.,21.,14.);(12.,3.,14.,5.);(12.,2.,16.,3.);(24.,5.,24.,8.);(25.,2.,27.,2.);(27.,4.,31.,6.);(38.,4.,39.,8.);(44.,18.,44.,19.);(44.,18.,45.,21.);(26.,15.,26.,16.);(27.,13.,27.,15.)];[(34.,30.,37.,32.);(39.,26.,43.,27.);(46.,26.,50.,26.);(37.,33.,38.,36.);(43.,41.,47.,43.);(40.,42.,43.,43.);(31.,45.,34.,45.);(33.,43.,37.,43.);(29.,45.,30.,45.);(12.,30.,15.,34.);(6.,34.,7.,37.);(16.,50.,19.,53.);(23.,49.,25.,53.);(13.,63.,15.,67.);(22.,63.,22.,64.);(8.,62.,11.,66.)];[(1.,61.,3.,61.);(0.,58.,2.,62.);(7.,82.,8.,86.);(17.,90.,20.,92.);(22.,90.,23.,93.);(22.,89.,22.,93.);(17.,85.,21.,87.);(16.,75.,18.,78.);(14.,75.,15.,79.);(15.,71.,18.,74.);(41.,84.,44.,87.);(46.,68.,50.,68.);(47.,61.,47.,63.);(26.,66.,29.,66.);(27.,64.,28.,66.);(33.,62.,34.,65.)];[(32.,58.,36.,61.);(26.,52.,30.,52.);(23.,50.,26.,52.);(36.,56.,38.,56.);(48.,53.,52.,56.);(57.,59.,58.,59.);(66.,55.,70.,55.);(61.,55.,63.,56.);(64.,66.,67.,67.);(62.,66.,65.,67.);(52.,67.,54.,71.);(52.,70.,54.,74.);(48.,80.,50.,81.);(58.,89.,58.,89.);(53.,83.,57.,87.);(67.,87.,67.,89.)];[(64.,80.,64.,83.);(63.,80.,64.,84.);(59.,78.,62.,78.);(74.,77.,77.,79.);(76.,86.,80.,89.);(71.,89.,74.,92.);(80.,87.,80.,87.);(94.,94.,96.,95.);(89.,84.,92.,88.);(92.,77.,96.,80.);(86.,74.,90.,77.);(83.,73.,87.,77.);(87.,70.,90.,74.);(92.,68.,92.,72.);(71.,63.,75.,67.);(74.,60.,76.,63.)];[(72.,51.,73.,55.);(84.,51.,85.,53.);(85.,52.,89.,56.);(87.,57.,87.,59.);(88.,48.,88.,48.);(86.,45.,87.,48.);(85.,36.,89.,38.);(76.,26.,79.,29.);(76.,37.,79.,39.);(82.,45.,84.,48.);(64.,25.,65.,28.);(66.,13.,67.,15.);(55.,23.,59.,26.);(56.,23.,57.,26.);(51.,19.,53.,19.);(57.,17.,57.,19.)];[(57.,11.,61.,13.);(64.,11.,68.,11.);(87.,6.,88.,6.);(84.,4.,85.,5.)]]

let ordf = Upstream_tests.ordf
let mk l = match build ordf 16 (List.map (fun (a,b,c,d) -> {bMinX=o (a:float);bMinY=o (b:float);bMaxX=o (c:float);bMaxY=o (d:float)}) l) with Ok i -> i | _ -> failwith "build"
let bx b = ((o b.bMinX:float),(o b.bMinY:float),(o b.bMaxX:float),(o b.bMaxY:float))
let lv i = match visitBoundingBoxes ordf 16 i (fun st l b -> (true, (l,bx b)::st)) [] with Ok l -> List.rev l | _ -> failwith "bb"
let () =
  let i = mk data in
  assert (bx {bMinX=i.m_minX;bMinY=i.m_minY;bMaxX=i.m_maxX;bMaxY=i.m_maxY} = (0.,1.,96.,95.));
  let l = lv i in
  (* runs of same level *)
  let rec runs = function [] -> [] | (l,b)::t -> (match runs t with (l',bs)::r when l'=l -> (l,b::bs)::r | r -> (l,[b])::r) in
  let r = runs l in
  Printf.printf "levels %s\n" (String.concat " " (List.map (fun (l,bs) -> Printf.sprintf "%d:%d" l (List.length bs)) r));
  (match r with [_,r0;_,r1;_,r2] -> 
     assert (r0 = [(0.,1.,96.,95.)]); assert (r1 = tier1);
     let r2 = Array.of_list (List.rev r2) in
     List.iteri (fun k e -> let s = Array.to_list (Array.sub r2 (16*k) (List.length e)) in assert (List.sort compare s = List.sort compare e)) nodes
   | _ -> assert false);
  let small = mk (List.filteri (fun i _ -> i < 14) data) in
  (match runs (lv small) with [_,[r0];_,r1] -> assert (r0 = (0.,2.,96.,93.)); assert (r1 = List.filteri (fun i _ -> i < 14) data) | _ -> assert false);
  (match query ordf 16 i (o 40.) (o 40.) (o 60.) (o 60.) [] with Ok l -> assert (List.sort compare l = [6;29;31;75]) | _ -> assert false);
  (match visitItemBoxes ordf i (fun st k _ -> (true,k::st)) [] with Ok l -> assert (List.sort compare l = List.init 100 (fun i -> i)) | _ -> assert false);
  (match visitQuery ordf 16 i (o 40.) (o 40.) (o 60.) (o 60.) (fun st k -> let st = k::st in (List.length st <> 2, st)) [] with Ok l -> assert (List.length l = 2) | _ -> assert false);
  print_endline "index ok"
