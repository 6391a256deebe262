{
 "C01": "`write`, `encode`, `read` on byte lists; encoder output = run lengths of the voxel bits, decoder inverts run lengths by induction, header text by parser lemmas. Premise: FloatText. For the concurrent writer: composition with C10 (C01_any_schedule).",
 "C02": "as C01 for an arbitrary window.",
 "C03": "window placement over Q; field arithmetic; refutation by witness.",
 "C04": "encoder invariant: maximal runs split at 255.",
 "C05": "count of set bits of the window = number returned. For the concurrent writer: C05_any_schedule.",
 "C06": "cursor invariant of the decoder on arbitrary bytes.",
 "C07": "decoder accepts iff the records fit; list induction.",
 "C08": "prefix lemma for the decoder; witness for silent acceptance.",
 "C09": "exact (inclusive) window proved; half-open window refuted by witness.",
 "C10": "encoder and consumer as a two-process machine with a bounded channel: invariant, confluence, decreasing measure.",
 "C11": "scripted writer; case analysis over all outcomes of create, writes and close.",
 "C12": "computation of the header path for empty models.",
 "C13": "gset/gmap lemmas. Exact form of the model after a list of Adds by induction; file by C01.",
 "C14": "field arithmetic over Q.",
 "C15": "27 offsets by kernel computation, lifted to all integer keys; symmetry by bit lemmas.",
 "C16": "fold invariants over arbitrary permutations and arbitrary slice growth.",
 "C17": "invariant 'between true shell and model' through any sequence of parts.",
 "C18": "exactness with spare capacity; voxel-set exactness always; witness history.",
 "C19": "membership test before insertion; fold invariant.",
 "C20": "exact offsets over Q; refutation for mixed signs.",
 "C21": "case analysis of `update`.",
 "C22": "rescaling over Q.",
 "C23": "codec with uint16/byte counts: run-length argument of C01 plus wrap-around; witnesses of the losses.",
 "C24": "total decoder on arbitrary bytes; cursor invariant; truncation lemma.",
 "C25": "two-process machine with early exit; invariant and exact leak condition.",
 "C26": "loop invariant on the error term of Bresenham's loop.",
 "C27": "octant reduction to C26.",
 "C28": "fold invariants of plot and fill; witness for negative x.",
 "C29": "fork-join machine (ForkJoin.v): every interleaving ends in the state of the sequential reading; no deadlock, no race on the shared map; measure for termination.",
 "C30": "`intersectSegment`, `intersectTriZPlane`, `intersectZPlane` over Q; convexity of triangles; linear arithmetic.",
 "C31": "exact description of the fill state after each column, by induction over the row.",
 "C32": "256 patterns by kernel computation over generated tables.",
 "C33": "directed edges of cell triangles cancel face by face: finite sweep over patterns of two neighbouring cells lifted to all finite voxel sets, then to all map orders.",
 "C34": "vertex of a marked edge lies between a filled and an empty corner; orientation by determinants in the finite sweep.",
 "C35": "fold invariant of `keyFunc` over both voxel maps in any order.",
 "C36": "as C33 for the manifold templates, with a second set of face contributions for the patterns that cross a face along the other diagonal; the converse by an additive antisymmetric functional that counts how often edges pass the middle of a piece of a cell face, and induction upwards through the cells.",
 "C37": "lexicographic order lemmas over Q.",
 "C38": "gset lemmas about `voxcut`, composed with Read/Write theorems.",
 "C39": "rewording to what the code does; world-space claim refuted.",
 "C40": "length computation of the chunks.",
 "C41": "induction over the three loops; windows partition the grid.",
 "C42": "tile loop, per-tile placement and content (via translation of Voxelize, VoxelizeShift.v), union, exact loss; C42_empty_tile_file for the empty tile with a file.",
 "C43": "directory as a map from names to bytes; prefix of writes; idempotence.",
 "C44": "binary64 Lerp via Flocq: shared boundaries are the same float; ends exact under stated conditions; witness.",
 "C45": "imager as a fold over pixel updates; permutation invariance (base/cut lattice).",
 "C46": "interleaving machine for the zip writer; explicit bad schedule; exact description of good schedules.",
 "C47": "reader loop over entries; round trip of pixels.",
 "C48": "worker pool machine: invariant over all schedules; bound on running workers; termination.",
 "C49": "agent pool machine; invariant; counterexample schedule.",
 "C50": "job machine on top of C49; archive contents for all histories; stuck states.",
 "C51": "slave handlers over a directory state; all request histories.",
 "C52": "binary/text decision and both parsers on byte lists; exact triangles.",
 "C53": "regions of stl2svx/agent; arithmetic of tiles.",
 "C54": "mapper/reducer over all delivery orders; exact image, in terms of the meshes as loaded (remade triangles give the same voxels); loss of upper slices.",
 "C55": "binary64: relative error of the product, ceiling of the rounded value; witness by computation.",
 "C56": "binary64: six roundings followed through; truncation of an interval that contains one integer.",
 "C57": "binary64: induction over the growth history with relative error per step; witness by computation.",
 "C58": "digital line within half a step of the segment (C27), floor bounds, exact slice (C30), fill (C31).",
 "C59": "cuts of the 12 triangles, axis-parallel digital lines, row balance, composed through C29\u2013C31.",
 "C60": "MarchingCubes over Flocq binary64; vertices factor through grid points (half-integers exact), then the pairing argument of C33; Sterbenz for the sufficient condition; the gaps by computation of the mesh and an edge without partner.",
 "C61": "ManifoldMesh over Flocq binary64; the cell argument of C36 with cuts along the axes only; the coordinate computation is exact up to two roundings, hence monotone in the index, so a grid midpoint stays on its edge; float32 rounding is monotone too.",
 "C62": "FloatMeshError.v: forward error analysis (|fl x - x| <= 2^-53(|x|+w)) of each coordinate, carried through the tables cell by cell; the rational model is the one of C33-C36.",
 "C63": "FloatVoxelModel.v is VoxelizeModel.v over binary64. Fill: each slice is simulated by an exact mesh with the same outlines, so C31's theorem applies. Accuracy: forward error analysis of slicing and of the grid cell (u = 2^-53), then C58's lemmas about digital lines; coverage: away from vertices the float decisions equal the exact ones, so C30 gives the cut. C63_facing: the dot product with (-1,0,0) is exact.",
 "C64": "directory as a map from names to bytes; Glob as sort of the matching names; invariant over the files for the placement, using C16-C20 for Add and C23/C24 for the written bytes.",
 "C65": "C42 gives what each tile file holds, the names are ordered like the tiles up to 100 per axis, so C64_merges applies with the tile offsets.",
 "C66": "a matcher that tries the greedy choices in order of preference, proved sound for a declarative match relation; the first success is computed symbolically; longer candidates of the third group are excluded by counting commas after a hyphen.",
 "C67": "the command as a relation over the runs of the worker-pool model of C48; the inputs are characterised from the sorted listing.",
 "C68": "closedness as a permutation of the edge list and its reverse, hence stable under any map of vertices and under concatenation; C33 for each part, C67 for the merge.",
 "C69": "the volume is a sum over the cells of an integer of the pattern once the open boundary of each cell's patch contributes a cancelling term; the table of 256 patterns is evaluated by the kernel, the sum over cells counts each voxel eight times.",
 "C70": "crossing numbers of the ray with each cell's patch, read off a table of signs for each of the regions (16 in the octahedron, 72 in the voxel) into which the projected template edges cut the plane; the column sum telescopes to the occupancy of the voxel. In z: every vertex of the tables is off the corners of its cell, so every triangle is at distance at least 1/2 (in the 1-norm) from every centre; the winding number does not change along a vertical segment that does not meet the mesh.",
 "C71": "affine image of the contract for unit cubes; the contract is met by an explicit mesher, by cases over the six sides. C71_winding: winding numbers under the affine map; C71_unit_faces shows that the explicit mesher meets this contract too.",
 "C72": "induction over the files; composition of C33, C47 and C70.",
 "C73": "Split inverts Join on words without the separator; file names decoded from the right; composition with C50 and C72.",
 "C74": "induction over interfaces and addresses.",
 "C75": "what each tile file reads as (C42) and where; winding numbers add over joined meshes; each voxel lies in exactly one tile; C70 at every point of the octahedron (encloses).",
 "C76": "composition of C36_exact and C70_manifold_watertight with the command.",
 "C77": "`shell_mbb`; composition of C20 (world positions kept), C22 (dimensions grow) and C17 (sequence) by induction over the parts.",
 "C78": "C59 gives a product of three intervals of voxels; every 2x2x2 block of a product set is well composed (64 cases), so C36, C69 and C70 apply; the number of voxels by floors. C78_encloses: C70_inside_cube at the voxel the point is in.",
 "C79": "words of the printed lines; what stldice leaves in each file (C42), what voxcut makes of it (C38) and ToMesh (C71_winding); winding numbers add over the tiles; merge-stl by C67.",
 "C80": "From a point of the solid, going along +x or -x leads to a point of a triangle that faces that way (the nearest of the planes that bound the way); the digital line of that triangle meets the row (Bresenham lines meet every row between their ends), so each row of a layer has an out-facing triangle on each side of a deep voxel and none between by the supporting planes; then the fill loop of that row. C80_near: shell pixels are within half a voxel of the cut, and a filled run lies between two of them, hence by convexity in the solid. C80_surface adds C71_winding.",
 "C81": "C79_script says which voxels the file surrounds, C80_inside and C80_near which voxels those are; the grid of the whole model has positive sides and resolution if the tiles have.",
 "C82": "BinvoxDiceScriptModel prints the script and runs it, with binvox as a parameter that writes to the first free one of stem.binvox, stem_1.binvox, ...; an invariant over the tiles says which of these files exist.",
 "C83": "VoxcutDirModel parses the words of each command with a model of package flag and runs voxcut's main on a directory; an invariant over the tiles (distinct names, C41) says which files exist, C38 and C71 what is in them, and merge-stl is C67 with winding numbers added over the tiles that contain a voxel.",
 "C84": "The outline of a wall across x is exactly the rows it touches (a digital line between two points of the same column), of a wall across y the columns; so the shell is the set of voxels among whose four neighbours at the corner the model changes. In a row, the balance of Voxelize is positive where a run of the model begins and negative where it ends, by induction along the row; ToMesh's mesh is shown to be such a surface, triangle by triangle.",
 "C85": "The exact description of the filled voxels (C31) uses the normals only in the balance of a column, so equal signs give equal voxels. A sum of unit normals within the angle of one that is farther from the plane than the angle keeps its side (Cauchy-Schwarz) and is not too short for the threshold of 10^-9. The finding is computed in the kernel.",
 "C86": "A reader for the documented pattern language of filepath.Match, and a matcher by recursion on the terms. Lemmas by induction on the text of the prefix give the terms it is read as and the names they match. The two commands are restated with the general Glob and shown equal to those of C64 and C67 for plain prefixes. That no other prefix is safe follows by counting: a pattern shorter than its text has a match shorter than its text, or none."
}