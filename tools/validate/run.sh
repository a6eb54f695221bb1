#!/bin/sh
# Extracts the generic model, instantiates it with IEEE doubles and libm (OCaml floats) and runs the
# expectations of /repo/tests/tests against it.  Needs a built /verif/rocq.  Evidence of model fidelity only: no theorem depends on it.
set -e
D=${1:-/tmp/validate}; mkdir -p "$D"; H=$(cd "$(dirname "$0")" && pwd)
for f in upstream_tests index_tests; do cp "$H/$f.ml.txt" "$D/$f.ml"; done; cd "$D"
cat > Ext.v <<'X'
From Coq Require Import Extraction ExtrOcamlBasic ExtrOcamlNatInt List ZArith.
From Verif Require Import Base Num MathUtils SpatialIndex PlineSegment Polyline Intersects StdLaws Combine Offset Islands.
Extraction "model.ml" parallelOffset combinePolylines getArea getPathLength getExtents getWindingNumber closestPoint
  createApproxSpatialIndex allSelfIntersects convertArcsToLines pruneSingularities invertDirection scalePolyline translatePolyline
  compute newObj query build visitQuery visitItemBoxes visitBoundingBoxes InsertionStd Build_RealOps Build_OrdOps.
X
coqc -Q "$H/../../rocq/theories" Verif Ext.v
ocamlfind ocamlopt -w -a model.mli model.ml upstream_tests.ml index_tests.ml -o tests && ./tests
