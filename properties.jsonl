{"id": "C01", "title": "Vertex merging moves no vertex farther than the tolerance", "statement": "When duplicate vertices are merged with tolerance atol, every original vertex is assigned the id of an existing surviving vertex, every surviving vertex is (bit for bit) one of the original vertices, every survivor is used, the vertex count never grows, and each coordinate of an original vertex differs from the same coordinate of its survivor by at most atol.", "quantifier": "every array with at least one row and any number of columns, every atol >= 0, every outcome of the unstable sort used internally", "why_tests_cant": "Depends on the order in which groups are refined dimension after dimension and on how ties are sorted; a test only sees a few arrays and one sort.", "anchors": ["meshmagick/tools.py: merge_duplicate_rows", "meshmagick/mesh.py: Mesh.merge_duplicates"]}
{"id": "C02", "title": "Exact duplicates are always merged", "statement": "Two identical vertices always receive the same new id, and with tolerance zero two vertices receive the same id if and only if they are identical; in particular an array without duplicates comes back unchanged, in its original order, with the identity numbering.", "quantifier": "every array with at least one row, every atol >= 0, every outcome of the unstable sort", "why_tests_cant": "Equal rows may be far apart in the array and separated by the refinement of the earlier columns; only an argument over all arrays excludes losing a pair.", "anchors": ["meshmagick/tools.py: merge_duplicate_rows"]}
{"id": "C03", "title": "Merging is not guaranteed to leave well separated vertices", "statement": "The documentation says that after merging 'every node is different' up to the tolerance. Surviving vertices are indeed pairwise different, but two survivors may still lie within atol of each other in every coordinate, so a second merge can merge again: merging is not idempotent.", "quantifier": "existence of an array and tolerance (for the failure); every array, tolerance and sort outcome (for pairwise difference)", "why_tests_cant": "Random arrays practically never contain the chained configuration; the existing test calls the function once and asserts nothing.", "anchors": ["meshmagick/tools.py: merge_duplicate_rows"]}
{"id": "C04", "title": "Mesh vertex merging keeps every face in place", "statement": "Merging the vertices of a mesh keeps the number, order and orientation of the faces; every face index stays valid, and every corner of every face moves by at most atol in each coordinate. When no two vertices are merged the mesh is unchanged.", "quantifier": "every mesh with valid indices, every atol >= 0, every sort outcome", "why_tests_cant": "Needs the renumbering to be consistent between two arrays for all inputs.", "anchors": ["meshmagick/mesh.py: Mesh.merge_duplicates", "meshmagick/tools.py: merge_duplicate_rows"]}
{"id": "C05", "title": "Extracting faces preserves geometry and drops exactly the unused vertices", "statement": "Extracting a list of faces yields a mesh with one face per requested id, in the requested order, whose corner coordinates equal those of the original face; the new vertex list contains exactly the vertices used by the requested faces, each once and in their original order, and the returned index array maps each new vertex to its original.", "quantifier": "every mesh with valid indices and every list of valid face ids (repetitions and any order allowed)", "why_tests_cant": "The renumbering must be right for every subset of faces; tests never call it with return_index.", "anchors": ["meshmagick/mesh.py: Mesh.extract_faces"]}
{"id": "C06", "title": "Removing unused vertices changes nothing visible", "statement": "Removing unused vertices keeps every face's corner coordinates, keeps exactly the used vertices in their original order, leaves valid indices, and is idempotent.", "quantifier": "every mesh with valid indices", "why_tests_cant": "Quantifies over all patterns of used and unused vertices.", "anchors": ["meshmagick/mesh.py: Mesh.remove_unused_vertices"]}
{"id": "C07", "title": "Triangle healing only rotates faces and normalises every triangle", "statement": "Healing triangles only rotates the four entries of each face cyclically, so the oriented boundary of each face is unchanged; every face having two cyclically consecutive equal entries ends up with its first entry equal to its last; faces already in that form are untouched, and healing twice classifies the same faces as triangles as healing once.", "quantifier": "every face array with four columns", "why_tests_cant": "Holds for each of the four places where the repeated index may be, for every mixture of faces.", "anchors": ["meshmagick/mesh.py: Mesh.heal_triangles"]}
{"id": "C08", "title": "Triangulation splits every quadrangle and nothing else", "statement": "After triangulating, every face is a triangle, the number of faces has grown by the number of quadrangles, triangles keep their place, each quadrangle a,b,c,d is replaced by a,c,d with a,b,c appended; the oriented surface keeps the same boundary and the same total vector area, and the exact integral of x, y, z and their products over it.", "quantifier": "every mesh with valid indices", "why_tests_cant": "An equation between geometric sums over all meshes.", "anchors": ["meshmagick/mesh.py: Mesh.triangulate_quadrangles"]}
{"id": "C09", "title": "Adding meshes concatenates their surfaces", "statement": "The sum of two meshes has the faces of the first followed by the faces of the second; each corner of each face lies within 1e-8 per coordinate of the corresponding corner in its operand, and indices are valid.", "quantifier": "every pair of meshes with valid indices, at least one vertex in total, every sort outcome", "why_tests_cant": "Needs the index shift and the merge renumbering to compose correctly for all inputs.", "anchors": ["meshmagick/mesh.py: Mesh.__add__"]}
{"id": "C10", "title": "Mirroring is an isometric involution that keeps the orientation outward", "statement": "Mirroring a mesh by a plane maps every vertex to its reflection; mirroring twice by the same plane restores vertices and faces; distances are preserved; the face order is reversed, so an outward surface stays outward and the enclosed volume of a closed mesh is unchanged.", "quantifier": "every mesh and every plane with unit normal", "why_tests_cant": "Algebraic identities over all planes and meshes.", "anchors": ["meshmagick/mesh.py: Mesh.mirror", "meshmagick/mesh.py: Plane"]}
{"id": "C11", "title": "Symmetrizing produces a symmetric mesh", "statement": "Symmetrizing by a plane keeps the original faces and appends, for each of them, its reflected and re-oriented copy (each corner within 1e-8 per coordinate); the number of faces doubles; before vertex merging the set of faces is invariant under the reflection.", "quantifier": "every mesh with valid indices and at least one vertex, every plane with unit normal, every sort outcome", "why_tests_cant": "Quantifies over all planes and meshes.", "anchors": ["meshmagick/mesh.py: Mesh.symmetrize"]}
{"id": "C12", "title": "Flipping normals is an involution that reverses every normal", "statement": "Flipping twice restores the faces; after one flip every face normal is the opposite one; triangles stay triangles; the volume changes sign when the faces are non degenerate triangles or planar convex quadrangles.", "quantifier": "every mesh with valid indices and non degenerate faces (degeneracy only matters for the normal)", "why_tests_cant": "Universal algebraic identity.", "anchors": ["meshmagick/mesh.py: Mesh.flip_normals"]}
{"id": "C13", "title": "Degenerate face removal removes exactly the tiny faces", "statement": "With relative tolerance rtol, the faces kept are, in order, exactly those whose area is at least rtol times the mean area; vertices are untouched; with rtol at most one, at least one face of a non-empty mesh is kept, and faces of mean area or more are never removed.", "quantifier": "every mesh, every rtol > 0", "why_tests_cant": "Depends on a global mean over all faces of an arbitrary mesh.", "anchors": ["meshmagick/mesh.py: Mesh.remove_degenerated_faces"]}
{"id": "C14", "title": "Face areas, normals and centers are geometrically right", "statement": "For a non degenerate triangle the reported area is half the norm of the edge cross product, the normal is the unit vector orthogonal to the edges with the right-hand orientation and the center is the centroid; for a quadrangle the area is the sum of the areas of the triangles (0,1,2) and (0,2,3), the center their area weighted centroid, and the normal is unit and orthogonal to both diagonals; for a planar convex quadrangle area times normal is the vector area of the face.", "quantifier": "every mesh with valid indices and non degenerate faces", "why_tests_cant": "Identities in the coordinates, for all coordinates.", "anchors": ["meshmagick/mesh.py: Mesh._faces_properties"]}
{"id": "C15", "title": "Rigid motions keep the shape", "statement": "Translations and rotations preserve all distances between vertices and all face areas; rotations preserve the volume of every mesh, translations that of every closed mesh whose faces are non degenerate triangles or planar convex quadrangles; normals are unchanged by translation and rotated by rotation, centers follow the motion; rotating by (phi,theta,psi) equals rotating by phi about x then theta about y then psi about z.", "quantifier": "every mesh, translation vector and angles", "why_tests_cant": "Universal over angles and coordinates.", "anchors": ["meshmagick/mesh.py: Mesh.translate, translate_x, translate_y, translate_z, rotate, rotate_x, rotate_y, rotate_z, rotate_matrix"]}
{"id": "C16", "title": "Volume is the exact signed volume, for planar faces", "statement": "For a mesh whose faces are non degenerate triangles or planar convex quadrangles the reported volume is the sum of the signed volumes of the tetrahedra joining the origin to the triangles of the mesh; for a closed mesh it is invariant under translation and rotation, multiplied by alpha^3 by scale(alpha), by alpha by scalex/y/z(alpha), and negated by flipping.", "quantifier": "every mesh in the stated class, every motion", "why_tests_cant": "A sum over an arbitrary closed surface; only a proof over the edge cancellation covers all.", "anchors": ["meshmagick/mesh.py: Mesh._compute_volume, volume, _compute_triangles_integrals, _compute_faces_integrals"]}
{"id": "C17", "title": "Volume of a closed mesh with warped quadrangles depends on where the mesh is", "statement": "With non planar quadrangles the reported volume of a closed mesh is in general not invariant under translation, nor equal to the volume of the triangulated mesh.", "quantifier": "existence of a closed mesh and a translation", "why_tests_cant": "Test meshes have planar or nearly planar quadrangles, where the defect vanishes.", "anchors": ["meshmagick/mesh.py: Mesh._compute_volume, _faces_properties"]}
{"id": "C18", "title": "Surface integrals are exact", "statement": "For every triangle the reported integrals of x, y, z, x^2, y^2, z^2, x^3, y^3, z^3, x^2 y, y^2 z, z^2 x over the triangle equal the exact surface integrals; over a quadrangle they equal the sum over its two triangles (0,1,2) and (0,2,3).", "quantifier": "every triangle in space", "why_tests_cant": "Polynomial identity in nine coordinates.", "anchors": ["meshmagick/mesh.py: Mesh._compute_triangles_integrals, _compute_faces_integrals, get_surface_integrals"]}
{"id": "C19", "title": "Products of inertia of shells are wrong", "statement": "The reported integrals of yz, xz and xy over a triangle are not the exact surface integrals in general: there are triangles for which they differ, so the products of inertia returned for shells are wrong in general; they are right if and only if a specific polynomial in the coordinates vanishes.", "quantifier": "existence of a triangle (failure); every triangle (characterisation)", "why_tests_cant": "Symmetric test bodies have vanishing products, where errors cancel.", "anchors": ["meshmagick/mesh.py: Mesh._compute_triangles_integrals, eval_shell_mesh_inertias"]}
{"id": "C20", "title": "Inertia of a plain body is the exact volume integral", "statement": "For a closed mesh of non degenerate triangles or planar convex quadrangles, the mass, center of gravity and all six inertia coefficients returned for a plain body equal density times the exact integrals of 1, x, y, z, and quadratic monomials over the signed tetrahedra spanned by the origin and the mesh triangles; on an open mesh the mass still is but the center of gravity may not be.", "quantifier": "every mesh in the stated class with non zero volume, every density", "why_tests_cant": "Polynomial identities summed over arbitrary meshes; tests compare one cylinder at 10 percent.", "anchors": ["meshmagick/mesh.py: Mesh.eval_plain_mesh_inertias"]}
{"id": "C21", "title": "Shell mass, center and moments of inertia are exact", "statement": "For a shell, mass, center of gravity and the three moments of inertia equal density times thickness times the exact surface integrals.", "quantifier": "every mesh of non degenerate faces with positive area, every density and thickness", "why_tests_cant": "Universal in the coordinates.", "anchors": ["meshmagick/mesh.py: Mesh.eval_shell_mesh_inertias"]}
{"id": "C22", "title": "Bounding boxes are tight and the squared box is a cube around the same center", "statement": "The axis aligned bounding box contains every vertex and each of its six faces touches a vertex; the squared box contains it, has equal sides and the same center; an empty mesh gives zeros.", "quantifier": "every mesh", "why_tests_cant": "Quantifies over all vertex lists.", "anchors": ["meshmagick/mesh.py: Mesh.axis_aligned_bbox, squared_axis_aligned_bbox"]}
{"id": "C23", "title": "Edge statistics: triangles contribute a zero edge", "statement": "The maximum edge length is the true maximum over the edges of the faces; for a mesh of quadrangles min and mean are true as well; as soon as one face is a triangle the reported minimum edge length is 0, because the repeated corner is counted as an edge.", "quantifier": "every mesh with at least one face", "why_tests_cant": "No test looks at a mesh with triangles here; the claim is over all meshes.", "anchors": ["meshmagick/mesh.py: Mesh._edges_stats, min_edge_length, max_edge_length, mean_edge_length"]}
{"id": "C24", "title": "Cached quantities agree with a freshly built mesh along safe histories", "statement": "Over all the public operations of a mesh and its queries, along every history following a stated discipline, every answer, exception and final mesh is that of a fresh mesh built at each call from the current vertices and faces. Vertex and face assignments, translations, rotations, triangulation, mirroring, symmetrizing, removal of unused vertices and all queries may come in any order; scaling is excluded with surface integrals cached but no face properties; merging and triangle healing with face data cached; normal healing with an outdated connectivity or cached face data; connectivity queries after an operation that outdates it.", "quantifier": "every finite disciplined history on every mesh with non degenerate faces when it is moved, planar faces when it is flipped", "why_tests_cant": "Staleness depends on which quantities were queried before which operation; the number of histories is unbounded.", "anchors": ["meshmagick/mesh.py: Mesh.__internals__ and all methods touching it"]}
{"id": "C25", "title": "Scaling can leave stale surface integrals", "statement": "If the surface integrals have been computed but not the face properties, scaling does not invalidate them: a later volume query returns the volume before the scaling, whereas a fresh mesh gives the cube of the factor times that volume.", "quantifier": "every mesh with non degenerate faces and every positive factor", "why_tests_cant": "Requires a specific order of queries and operations.", "anchors": ["meshmagick/mesh.py: Mesh.scale, scalex, scaley, scalez, _remove_faces_properties"]}
{"id": "C26", "title": "Other operations can leave stale cached data", "statement": "There are histories after which queries disagree with a fresh mesh: merging vertices after querying the triangles, healing triangles after querying the triangles, removing degenerate faces after querying connectivity, flipping normals after querying boundaries, healing normals after querying face adjacency.", "quantifier": "existence of a mesh and a history for each operation", "why_tests_cant": "Requires specific orders of queries and operations.", "anchors": ["meshmagick/mesh.py: Mesh.merge_duplicates, heal_triangles, remove_degenerated_faces, flip_normals, heal_normals"]}
{"id": "C27", "title": "Vertex and face adjacency are exact", "statement": "When connectivity is computed without error: a face is listed at a vertex exactly when the vertex is one of its corners; two vertices are listed as adjacent exactly when they are consecutive around some face; two faces are listed as adjacent exactly when they are the two faces containing two vertices that are consecutive around a face. Adjacency is symmetric.", "quantifier": "every mesh with valid indices", "why_tests_cant": "Universal over all topologies.", "anchors": ["meshmagick/mesh.py: Mesh._connectivity, vv, vf, ff"]}
{"id": "C28", "title": "Connectivity fails exactly on edges shared by more than two faces", "statement": "Computing connectivity raises an error if and only if some pair of vertices consecutive around a face is contained in three or more faces (for faces without repeated corners).", "quantifier": "every mesh with valid indices and non degenerate faces", "why_tests_cant": "Universal over all topologies.", "anchors": ["meshmagick/mesh.py: Mesh._connectivity"]}
{"id": "C29", "title": "Reported boundaries are closed chains of border edges", "statement": "Every reported boundary is a list of vertices that starts and ends with the same vertex, whose consecutive pairs are border edges (edges belonging to a single face) traversed against the face orientation, and no border edge is used twice.", "quantifier": "every mesh with valid indices, every iteration order of sets and dictionaries", "why_tests_cant": "The result depends on hash iteration order and on the topology.", "anchors": ["meshmagick/mesh.py: Mesh._connectivity, boundaries, nb_boundaries"]}
{"id": "C30", "title": "A closed mesh is reported closed, but the converse fails", "statement": "If no edge of the mesh belongs to a single face then is_mesh_closed returns True. The converse fails: there are open meshes reported closed. It holds when the border edges go around: at most one leaves and at most one enters each vertex, and one leaves whenever one enters.", "quantifier": "every mesh with valid indices (positive parts); existence (failure)", "why_tests_cant": "The failing configuration needs neighbouring faces that traverse their common edge in the same direction; the positive parts range over all surfaces.", "anchors": ["meshmagick/mesh.py: Mesh._connectivity, is_mesh_closed"]}
{"id": "C31", "title": "Normal healing only flips faces", "statement": "Healing normals keeps vertices and the face count, and each face is either unchanged or reversed.", "quantifier": "every mesh on which it returns, every set iteration order", "why_tests_cant": "Flood fill over arbitrary adjacency.", "anchors": ["meshmagick/mesh.py: Mesh.heal_normals"]}
{"id": "C32", "title": "Normal healing makes orientations consistent", "statement": "If the faces of the mesh can be oriented consistently (there is a choice of flips making every pair of adjacent faces traverse their common edge in opposite directions) and the common vertices of adjacent faces are the ends of an edge of both, then healing succeeds and after it healing every pair of adjacent faces is consistent.", "quantifier": "every orientable mesh with valid indices, faces without repeated corners and no edge in three faces, every set iteration order", "why_tests_cant": "Correctness of a graph traversal for all graphs.", "anchors": ["meshmagick/mesh.py: Mesh.heal_normals"]}
{"id": "C33", "title": "Normal healing makes the volume of a closed mesh non negative", "statement": "For an orientable mesh without border edges made of non degenerate triangles and planar convex quadrangles, with no face property cached beforehand, healing normals gives a closed consistently oriented surface whose volume is non negative.", "quantifier": "every such mesh", "why_tests_cant": "Combines the traversal with the divergence theorem on arbitrary surfaces.", "anchors": ["meshmagick/mesh.py: Mesh.heal_normals"]}
{"id": "C34", "title": "Normal healing cannot be run twice", "statement": "On any mesh whose first face has a neighbour, calling heal_normals twice in a row raises KeyError, because the first call destroys the cached face adjacency.", "quantifier": "every mesh whose face 0 has an adjacent face and on which the first call returns", "why_tests_cant": "No test calls it twice; the claim is for every mesh and iteration order.", "anchors": ["meshmagick/mesh.py: Mesh.heal_normals"]}
{"id": "C35", "title": "Conformity test looks at the first boundary only", "statement": "is_mesh_conformal returns None for a mesh without boundary, and otherwise a verdict that only depends on the area enclosed by the horizontal projection of the first boundary: later collapsed boundaries are never detected, and a proper boundary in a vertical plane is reported as collapsed.", "quantifier": "every mesh with valid indices (dependence), existence (missed collapsed boundary, rejected vertical boundary)", "why_tests_cant": "Needs meshes with two boundaries in a given order.", "anchors": ["meshmagick/mesh.py: Mesh.is_mesh_conformal"]}
{"id": "C36", "title": "Plane rotation matrices are rotations", "statement": "The matrix built from two fixed-axis angles is orthogonal with determinant one and equals the rotation of angle sqrt(thetax^2+thetay^2) about the axis (thetax,thetay,0); the two-angle Cardan matrix is orthogonal with determinant one and is the transpose of cardan_to_rotmat(phi,theta,0).", "quantifier": "every pair of angles", "why_tests_cant": "Trigonometric identities over all reals.", "anchors": ["meshmagick/mesh.py: _rodrigues, _cardan, _get_rotation_matrix"]}
{"id": "C37", "title": "Plane normals stay unit and the stored rotation maps z to the normal", "statement": "After construction and any sequence of rotate_normal, set_normal_from_angles, set_plane_parameters, flip_normal and assignment of c, the plane's normal has unit length and equals the stored rotation applied to the z axis; the sequence breaks this link as soon as the normal is assigned directly.", "quantifier": "every history of plane operations; existence for the failure", "why_tests_cant": "Invariant over unbounded histories.", "anchors": ["meshmagick/mesh.py: Plane.__init__, normal, rotate_normal, set_normal_from_angles, flip_normal, set_plane_parameters"]}
{"id": "C38", "title": "Plane angles round trip", "statement": "Setting the normal from angles of norm strictly below pi and reading the angles back returns the same angles; reading the angles of any unit normal and setting them restores the normal.", "quantifier": "every pair of angles with norm below pi; every unit normal", "why_tests_cant": "Inverse trigonometric functions over all reals.", "anchors": ["meshmagick/mesh.py: Plane.set_normal_from_angles, get_normal_orientation_wrt_z"]}
{"id": "C39", "title": "Edge intersection returns a point of the plane on the edge", "statement": "When the two end points lie on different sides of (or one on) the plane and not both on it, get_edge_intersection returns the unique point of the segment that lies on the plane, whatever the order of the end points; when both lie strictly on the same side at different distances it raises.", "quantifier": "every plane and pair of points with different signed distances", "why_tests_cant": "Universal over coordinates.", "anchors": ["meshmagick/mesh.py: Plane.get_edge_intersection"]}
{"id": "C40", "title": "Orthogonal projection is the nearest point of the plane", "statement": "The projection lies on the plane, projecting twice is projecting once, points of the plane are fixed and no point of the plane is nearer to the original point.", "quantifier": "every plane with unit normal and every point", "why_tests_cant": "Universal over coordinates.", "anchors": ["meshmagick/mesh.py: Plane.orthogonal_projection_on_plane, get_point_dist_wrt_plane, get_origin"]}
{"id": "C41", "title": "coord_in_plane does not give in-plane coordinates", "statement": "For planes orthogonal to the z axis points of the plane get a zero third coordinate; in general they do not (there are a plane and a point of it for which the third coordinate is not zero).", "quantifier": "every horizontal plane (positive), existence (failure)", "why_tests_cant": "The source itself carries a TODO to check this; the test only calls the function.", "anchors": ["meshmagick/mesh.py: Plane.coord_in_plane"]}
{"id": "C42", "title": "Flipping a plane's normal moves the plane", "statement": "flip_normal keeps the scalar, so it describes the same set of points if and only if the scalar is zero; otherwise the plane becomes its image by central symmetry.", "quantifier": "every plane", "why_tests_cant": "Universal statement about a set of points.", "anchors": ["meshmagick/mesh.py: Plane.flip_normal"]}
{"id": "C43", "title": "Cardan and quaternion matrices are rotations", "statement": "cardan_to_rotmat and, for unit quaternions, quat_to_rotmat return orthogonal matrices with determinant one; cardan_to_rotmat is the product Rz(psi) Ry(theta) Rx(phi); cardan_to_quat and axis_angle_to_quat (unit axis) return unit quaternions.", "quantifier": "all angles, unit quaternions and unit axes", "why_tests_cant": "Trigonometric identities over all reals.", "anchors": ["meshmagick/rotations.py: cardan_to_rotmat, quat_to_rotmat, cardan_to_quat, axis_angle_to_quat"]}
{"id": "C44", "title": "Cardan angles to quaternion to matrix agrees with Cardan angles to matrix", "statement": "quat_to_rotmat(cardan_to_quat(phi,theta,psi)) equals cardan_to_rotmat(phi,theta,psi), and axis_angle_to_rotmat is the Rodrigues rotation about the axis.", "quantifier": "all angles, all unit axes", "why_tests_cant": "Trigonometric identities over all reals.", "anchors": ["meshmagick/rotations.py: cardan_to_quat, quat_to_rotmat, axis_angle_to_rotmat"]}
{"id": "C45", "title": "Every rotation matrix is recovered from its Cardan angles", "statement": "For every rotation matrix R, cardan_to_rotmat(rotmat_to_cardan(R)) = R, gimbal lock included; for theta strictly between -pi/2 and pi/2 and phi, psi in (-pi, pi], rotmat_to_cardan(cardan_to_rotmat(phi,theta,psi)) returns the same angles.", "quantifier": "every orthogonal matrix of determinant one; all angles in the stated ranges", "why_tests_cant": "The gimbal lock branches are hit with probability zero by random tests.", "anchors": ["meshmagick/rotations.py: rotmat_to_cardan, cardan_to_rotmat"]}
{"id": "C46", "title": "Every rotation matrix is recovered from its quaternion", "statement": "For every rotation matrix R, rotmat_to_quat(R) is a unit quaternion q with quat_to_rotmat(q) = R; for every unit quaternion q, rotmat_to_quat(quat_to_rotmat(q)) is q or -q, in all four branches.", "quantifier": "every rotation matrix and unit quaternion", "why_tests_cant": "Four numeric branches selected by the data; all must be right for all inputs.", "anchors": ["meshmagick/rotations.py: rotmat_to_quat, quat_to_rotmat"]}
{"id": "C47", "title": "Axis-angle round trips away from the identity", "statement": "For a unit quaternion whose rotation angle is not below the internal cut-off, axis_angle_to_quat(quat_to_axis_angle(q)) = q with a unit axis; below the cut-off the rotation is replaced by the identity, so the round trip loses a rotation of up to 2e-4 rad.", "quantifier": "every unit quaternion outside the cut-off; existence inside", "why_tests_cant": "Random tests do not hit the cut-off.", "anchors": ["meshmagick/rotations.py: quat_to_axis_angle, axis_angle_to_quat"]}
{"id": "C48", "title": "The clipper partitions the faces exactly", "statement": "Every face of the source belongs to exactly one of the upper, crown and lower parts; upper faces have all vertices farther than the tolerance above the plane, lower faces all farther than the tolerance below, and face geometry is preserved in each part; the clipper refuses meshes entirely above or below.", "quantifier": "every mesh with valid indices, plane and tolerance", "why_tests_cant": "Universal over meshes and planes.", "anchors": ["meshmagick/mesh_clipper.py: MeshClipper._vertices_positions_wrt_plane, _partition_mesh"]}
{"id": "C49", "title": "Clipped faces stay below the plane", "statement": "For meshes of triangles and planar convex quadrangles without pinched face and without corner exactly at the tolerance, every corner of every face of the clipped mesh is at most the tolerance plus two merging tolerances above the plane and its indices are valid; a quadrangle with two opposite corners above and the two others below always keeps a corner above.", "quantifier": "every mesh of the stated class, plane and positive tolerance; existence for the failure", "why_tests_cant": "23 cases by position pattern times all rotations of the face; tests use one hull.", "anchors": ["meshmagick/mesh_clipper.py: MeshClipper._clip_crown_by_plane"]}
{"id": "C50", "title": "Clipping keeps exactly the part below the plane", "statement": "Each face of the source without the pinched pattern is replaced by faces whose union is contained in the face and at most the tolerance above the plane, contains everything of the face lower than the tolerance below it, equals the part under the plane when no corner is within tolerance, and keeps the orientation; these faces, up to the displacement of the two vertex mergings, are exactly the faces of the clipped mesh.", "quantifier": "every triangle and planar convex quadrangle, plane and positive tolerance", "why_tests_cant": "Set equality between regions of space.", "anchors": ["meshmagick/mesh_clipper.py: MeshClipper._clip_crown_by_plane"]}
{"id": "C51", "title": "Clipping aborts on some legitimate faces", "statement": "When no corner is exactly at the tolerance, the outcome is fully determined: RuntimeError iff all vertices are above or all below (or an open line is left and a closed mesh is demanded); otherwise an exception iff some quadrangle has exactly three corners within tolerance; otherwise IndexError iff no face straddles the lower limit; otherwise success. A triangle with a corner exactly at the tolerance, or a quadrangle with two, always makes clipping fail.", "quantifier": "every face pattern (exact characterisation)", "why_tests_cant": "The patterns are rare on real hulls.", "anchors": ["meshmagick/mesh_clipper.py: MeshClipper._vertices_positions_wrt_plane, _clip_crown_by_plane"]}
{"id": "C52", "title": "Intersection curves are closed chains of boundary edges", "statement": "Every closed polygon returned by the clipper starts and ends at the same vertex, its consecutive vertices are linked by boundary edges produced by clipping, no edge is used twice, and every recorded edge is consumed by some closed polygon or open line; the ordering terminates.", "quantifier": "every set of recorded boundary edges", "why_tests_cant": "Depends on dictionary order and arbitrary graphs.", "anchors": ["meshmagick/mesh_clipper.py: MeshClipper._clip_crown_by_plane, closed_polygons, open_lines"]}
{"id": "C53", "title": "Clipping a mesh with parts on both sides but no crossing face crashes", "statement": "If every face is entirely above or entirely below although the mesh has vertices on both sides, the clipper raises an IndexError instead of returning the lower part.", "quantifier": "every mesh with no crown face and vertices on both sides", "why_tests_cant": "Not covered by connected test hulls.", "anchors": ["meshmagick/mesh_clipper.py: MeshClipper._clip_crown_by_plane", "meshmagick/mesh.py: Mesh.__init__"]}
{"id": "C54", "title": "The clipped mesh keeps vertices above the plane", "statement": "Every corner of every crossing face, including those above the plane, remains (up to merging) a vertex of the clipped mesh although no face uses it, so its bounding box, and the 'overall submerged' length and breadth derived from it, exceed those of the immersed surface.", "quantifier": "existence of a mesh", "why_tests_cant": "Wall sided test hulls hide the difference.", "anchors": ["meshmagick/mesh_clipper.py: MeshClipper._clip", "meshmagick/hydrostatics.py: compute_hydrostatics"]}
{"id": "C55", "title": "Reduction point change obeys the parallel axis theorem when starting at the center of gravity", "statement": "For an inertia expressed at its center of gravity, setting the reduction point to P gives the inertia matrix about P (matrix at the center plus mass times (|d|^2 I - d d^T)), which is symmetric.", "quantifier": "every mass, center, symmetric matrix and point", "why_tests_cant": "Universal algebraic identity.", "anchors": ["meshmagick/inertia.py: RigidBodyInertia"]}
{"id": "C56", "title": "Shifting to the center of gravity adds instead of subtracting", "statement": "For an inertia not expressed at its center of gravity, at_cog and shift_at_cog do not return the inertia about the center of gravity unless mass or offset vanish; assigning the same reduction point twice changes the matrix, and moving the reduction point away and back does not restore it.", "quantifier": "every inertia with non zero mass and offset", "why_tests_cant": "Existing tests only exercise inertias already at the center.", "anchors": ["meshmagick/inertia.py: RigidBodyInertia.shift_at_cog, at_cog, reduction_point"]}
{"id": "C57", "title": "Analytic shapes report the exact integrals of the named body", "statement": "For the prism, cube, pyramid, isosceles wedge, circular, elliptical and hollow cylinders, cone, sphere, hollow sphere, ellipsoid, torus, and the conical, truncated conical, lateral cylindrical, spherical and hemispherical shells, the mass, the center of gravity (at the origin) and all six inertia coefficients equal density (times thickness) times the exact integrals over the body placed with its center at the origin; hollow bodies are the outer minus the inner body.", "quantifier": "all dimensions and densities", "why_tests_cant": "Identities over all parameters.", "anchors": ["meshmagick/inertia.py: rectangular_prism, cube, sphere, ellipsoid, right_circular_cylinder, hollow_right_circular_cylinder, hollow_sphere, elliptical_cylinder"]}
{"id": "C58", "title": "The hemisphere, closed cylinder shell and right angle wedge formulas are wrong", "statement": "The hemisphere does not report the exact inertia of a half ball (axial coefficient 0.26 instead of 0.4, transverse 0.26 instead of 83/320), so two half balls do not add up to the sphere; the closed cylindrical shell does not report the transverse moment of the lateral surface plus two end discs; the right angle wedge reports a zero product of inertia instead of m*base*height/36.", "quantifier": "every positive radius, height, density and thickness", "why_tests_cant": "No test compares shapes with each other.", "anchors": ["meshmagick/inertia.py: hemisphere, total_cylindrical_shell, lateral_cylindrical_shell, sphere"]}
{"id": "C59", "title": "Analytic solids have physically admissible inertia", "statement": "For positive dimensions and densities all analytic shapes have positive mass and moments satisfying the triangle inequalities, except the closed cylindrical shell, which does exactly when R^2(R+2H) <= H^2(3R+H): flat closed cylinders get a physically impossible inertia.", "quantifier": "all positive dimensions, densities and thicknesses", "why_tests_cant": "Universal inequality.", "anchors": ["meshmagick/inertia.py: right_circular_cylinder ... hemispherical_shell"]}
{"id": "C60", "title": "Waterplane moments are exact", "statement": "For a closed polygon the computed waterplane area, first moments and moments of inertia (x^2 and y^2) equal the exact integrals over the polygon (signed fan of triangles), hence do not depend on the starting vertex and change sign with orientation.", "quantifier": "every closed polygon", "why_tests_cant": "Identity over polygons with any number of vertices.", "anchors": ["meshmagick/hydrostatics.py: compute_hydrostatics (lines 63-105)"]}
{"id": "C61", "title": "The waterplane product of inertia is wrong", "statement": "The quantity documented as the integral of xy over the waterplane differs from it for some polygons (for the unit square 5/24 instead of 1/4), so the roll-pitch coupling stiffness is wrong for waterplanes without symmetry.", "quantifier": "existence of a closed polygon", "why_tests_cant": "Symmetric hulls have zero coupling.", "anchors": ["meshmagick/hydrostatics.py: compute_hydrostatics (line 86, 103, 115)"]}
{"id": "C62", "title": "Stiffness matrix is symmetric and built from the waterplane", "statement": "The stiffness matrix is symmetric, its heave term is rho g times the waterplane area, the flotation center is the waterplane centroid, and roll and pitch terms are rho g (I - V (zg - zb)), up to coefficients below 1e-4 being set to zero.", "quantifier": "all inputs with non zero volume and waterplane area", "why_tests_cant": "Universal over inputs.", "anchors": ["meshmagick/hydrostatics.py: compute_hydrostatics (lines 107-153)"]}
{"id": "C63", "title": "Centers are reported in the frame of the input mesh", "statement": "For a correction made of a rotation matrix and a vertical shift, moving the reported buoyancy center and waterplane center by the correction gives the buoyancy center and flotation center (at height zero) of the moved mesh.", "quantifier": "every rotation matrix and shift", "why_tests_cant": "Universal over corrections.", "anchors": ["meshmagick/hydrostatics.py: compute_hydrostatics (lines 143-153)", "meshmagick/hydrostatics.py: full_equilibrium"]}
{"id": "C64", "title": "Forward perpendicular is only right for stiffness at the center of gravity", "statement": "The reported forward perpendicular equals the largest waterline abscissa when at_cog is set; otherwise it is off by the abscissa of the buoyancy center.", "quantifier": "every waterplane", "why_tests_cant": "Depends on a flag combination never tested.", "anchors": ["meshmagick/hydrostatics.py: compute_hydrostatics (line 183)"]}
{"id": "C65", "title": "Displacement equilibrium stops and is honest when it converges", "statement": "The search ends after at most 99 hydrostatic evaluations; each step moves the mesh by at most a fifth of its height; if it stops before the limit the displacement at the returned position is within the relative tolerance of the target. At the limit the last position is returned although it may not satisfy the tolerance.", "quantifier": "every mesh, target, tolerance and whatever hydrostatic evaluation returns", "why_tests_cant": "Iterative loop over an arbitrary response function.", "anchors": ["meshmagick/hydrostatics.py: displacement_equilibrium"]}
{"id": "C66", "title": "Displacement equilibrium cannot handle a mesh leaving the water", "statement": "Whenever the hydrostatic evaluation reports that the mesh does not cross the plane, the search ends with an IndexError instead of the documented fallback or the original error.", "quantifier": "every such situation", "why_tests_cant": "The error path is never tested.", "anchors": ["meshmagick/hydrostatics.py: displacement_equilibrium (lines 236-246)", "meshmagick/mesh_clipper.py: MeshClipper._vertices_positions_wrt_plane"]}
{"id": "C67", "title": "Full equilibrium returns a rotation and is honest when it converges", "statement": "The returned correction matrix is always a rotation matrix, at most 99 evaluations are made, each step is bounded in heave, roll and pitch, and if it stops before the limit all three scaled residuals at the returned position are below the tolerance.", "quantifier": "every mesh, center of gravity, target and response", "why_tests_cant": "Invariant of an iterative loop over an arbitrary response function.", "anchors": ["meshmagick/hydrostatics.py: full_equilibrium"]}
{"id": "C68", "title": "Nemoh (.mar) files round trip", "statement": "Writing a mesh and reading it back gives the same faces and, for coordinates above -10^7 and below 10^8, vertices equal to the originals rounded to 6 decimals; writing again gives the same text. For larger coordinates columns merge, and reading fails or silently returns vertices with fewer than three coordinates. A mesh without faces cannot be read back.", "quantifier": "every mesh with at least one face and coordinates in range; existence for the failure", "why_tests_cant": "Text level claim for all numbers; tests write one mesh and do not compare.", "anchors": ["meshmagick/mmio.py: write_MAR, load_MAR"]}
{"id": "C69", "title": "NEM files round trip", "statement": "Writing a mesh and reading it back gives the same faces and vertices rounded to the printed precision, and writing the result again gives the same text.", "quantifier": "every mesh", "why_tests_cant": "Text level claim for all numbers.", "anchors": ["meshmagick/mmio.py: write_NEM, load_NEM"]}
{"id": "C70", "title": "NAT files round trip only for meshes of ordinary size", "statement": "Writing and reading back gives the same faces and rounded vertices when the mesh has at least 3 vertices and between 4 and 99999 faces; with 100000 faces or more the two header fields run together and reading fails; with one to three faces reading fails, and a mesh without faces comes back with four empty ones.", "quantifier": "every mesh in range; existence outside", "why_tests_cant": "The limits are far from test meshes.", "anchors": ["meshmagick/mmio.py: write_NAT, load_NAT"]}
{"id": "C71", "title": "GDF files round trip up to vertex numbering", "statement": "Reading back a written mesh gives, face by face and corner by corner, the same coordinates rounded to the printed precision, each face owning its four vertices; for meshes with fewer than four faces the announced count exceeds the content and reading never ends.", "quantifier": "every mesh with at least 4 faces; every mesh with fewer", "why_tests_cant": "Text level claim; a hang cannot be established by a finite test.", "anchors": ["meshmagick/mmio.py: write_GDF, load_GDF"]}
{"id": "C72", "title": "PNL files round trip", "statement": "Writing a mesh and reading it back gives the same faces and vertices rounded to 6 decimals when coordinates are above -10^9 and below 10^10, and reading fails for larger ones. A mesh of a single vertex comes back with a vertex array of one dimension.", "quantifier": "every mesh", "why_tests_cant": "Text level claim.", "anchors": ["meshmagick/mmio.py: write_PNL, load_PNL"]}
{"id": "C73", "title": "Decimal rounding is idempotent and bounded", "statement": "The fixed point text of a coordinate, read back, differs from it by at most half a unit of the last printed decimal plus the rounding of reading, and printing the value read gives the same text.", "quantifier": "every number and number of decimals", "why_tests_cant": "For all numbers.", "anchors": ["meshmagick/mmio.py: writers"]}
{"id": "C74", "title": "Writing STL alters the mesh in memory", "statement": "write_STL modifies the face array it receives: a mesh with quadrangles is changed by saving it, each quadrangle losing one of its two triangles; saving meshes made of triangles leaves them unchanged.", "quantifier": "every mesh", "why_tests_cant": "Tests do not look at the mesh after saving.", "anchors": ["meshmagick/mmio.py: write_STL"]}
{"id": "C75", "title": "File format dispatch", "statement": "Loading or writing with a keyword uses the reader or writer registered for exactly that keyword; any other string (including a known keyword in upper case) raises an error and nothing is written. The command line lower-cases formats deduced from file extensions but not formats given explicitly. The keyword 'dat' deduced from a .dat file is unknown. A mesh is put in the file asked for and no other file changes, except that Diodore files go to the name with its extension in capitals: nothing is to be found under a name such as hull.dat.", "quantifier": "every keyword string", "why_tests_cant": "For all strings.", "anchors": ["meshmagick/mmio.py: extension_dict, load_mesh, write_mesh, know_extension", "meshmagick/cli.py: main"]}
{"id": "C76", "title": "Density lookup is case-insensitive and total on the listed media", "statement": "Every medium listed has a positive density that get_density returns for any letter case of its name; any other name raises KeyError.", "quantifier": "every string", "why_tests_cant": "For all strings.", "anchors": ["meshmagick/densities.py: get_density, list_medium"]}
{"id": "C77", "title": "Command line operations are applied in a fixed order", "statement": "Whatever the order of the options, the mesh written is obtained by applying, in this order, concatenation, merging, mirroring, symmetrizing, healing, translations, rotations, scalings, flip, triangulation, clipping and the hydrostatic position correction; heal_normals is skipped when heal_mesh is requested, and without any option the written mesh is the loaded one with healed triangles.", "quantifier": "every combination of options", "why_tests_cant": "Exponentially many combinations.", "anchors": ["meshmagick/cli.py: main"]}
{"id": "C78", "title": "Converting without an output name can overwrite the input", "statement": "When only an output format is given the output name is the input base name with that format as extension; it equals the input file exactly when the input extension is that format, in which case the input is overwritten. With the format diodore-dat the file has the extension .DIODORE-DAT.", "quantifier": "every input name and format", "why_tests_cant": "For all names.", "anchors": ["meshmagick/cli.py: main"]}
{"id": "C79", "title": "Axis and angle are read back from a rotation matrix", "statement": "For the matrix of a rotation of angle strictly between 0 and pi about a unit axis, the axis-angle reader of the mesh module returns exactly that angle and axis; for the identity it raises ZeroDivisionError.", "quantifier": "every unit axis and every angle in (0, pi)", "why_tests_cant": "Universal over reals; the source carries a warning that the function has never been checked.", "anchors": ["meshmagick/mesh.py: _get_axis_angle_from_rotation_matrix"]}
{"id": "C80", "title": "Healing normals after a query of the face properties can leave a closed mesh inside out", "statement": "On a closed mesh the final orientation test of heal_normals uses the face properties cached before the faces were flipped: there is a closed planar mesh for which querying the properties first leaves inward normals and a negative volume, whereas without the query the volume is positive.", "quantifier": "existence of a mesh and a history", "why_tests_cant": "Requires a specific order of queries and operations on a mesh with mixed orientations.", "anchors": ["meshmagick/mesh.py: Mesh.heal_normals, _faces_properties"]}
{"id": "C81", "title": "Clipping loses an immersed part of pinched faces", "statement": "A quadrangle with two consecutive corners within tolerance, one corner above and one below is replaced by the triangle of the three lower corners alone, so that a point of the face far below the tolerance can be missing from the clipped mesh.", "quantifier": "every successful clip of a mesh with such a face, and existence of a lost point", "why_tests_cant": "Depends on the exact position of four corners with respect to the tolerance.", "anchors": ["meshmagick/mesh_clipper.py: MeshClipper._clip_crown_by_plane"]}
{"id": "C82", "title": "The border of a clipped closed mesh is the waterline", "statement": "When a closed mesh is clipped, the directed sides of the faces kept cancel two by two except for segments lying in the plane up to the tolerance; the segments balance at every point, and they are, up to merging, the edges that make up the intersection curves.", "quantifier": "every closed mesh of triangles and planar convex quadrangles without pinched face, every plane and tolerance", "why_tests_cant": "Statement over all meshes and clipping patterns, about the global topology of the result.", "anchors": ["meshmagick/mesh_clipper.py: MeshClipper._clip_crown_by_plane, closed_polygons, open_lines"]}
{"id": "C83", "title": "Clipping is exact when points are far enough apart", "statement": "When no two different points among the vertices and the crossings of sides with the plane are closer than the merging distances, the corners of the clipped faces are exactly the vertices of the source and the points where its sides meet the plane; for a closed mesh the sides of the clipped faces and the waterline, an explicit list of segments computed face by face, cancel exactly.", "quantifier": "every mesh of triangles and planar convex quadrangles without pinched face, every plane and tolerance", "why_tests_cant": "Statement over all meshes and all positions of the plane.", "anchors": ["meshmagick/mesh_clipper.py: MeshClipper._clip, _clip_crown_by_plane"]}
{"id": "C84", "title": "A closed mesh has a waterline made of closed polygons", "statement": "When in addition no point is the start of two segments of the waterline, clipping succeeds with and without assert_closed_boundaries, there is no open line, and the consecutive vertices of the closed polygons are exactly the segments of the waterline, each used once.", "quantifier": "every closed mesh of triangles and planar convex quadrangles without pinched face, every plane and tolerance", "why_tests_cant": "Statement over all meshes, about the global topology of the intersection.", "anchors": ["meshmagick/mesh_clipper.py: MeshClipper._clip_crown_by_plane, closed_polygons, open_lines"]}
{"id": "C85", "title": "The reported displacement is the immersed volume", "statement": "When the hydrostatics of a mesh are reported, the volume, the mass and the center of buoyancy are those of the immersed part of the mesh put in the given position, closed by a lid at the sea level (any lid gives the same volume), and the wetted surface is the sum of the areas of the immersed parts of the faces.", "quantifier": "every closed mesh of triangles and planar convex quadrangles in general position, every rotation, height and density", "why_tests_cant": "Universal over meshes and positions; a test only compares a few hulls with reference values.", "anchors": ["meshmagick/hydrostatics.py: compute_hydrostatics"]}
{"id": "C86", "title": "The pressure of the water amounts to the weight of the displaced water", "statement": "The hydrostatic pressure integrated over the immersed surface is a vertical force of value displacement times gravity, and its moment about any point is that of this force applied at the reported center of buoyancy.", "quantifier": "every closed mesh of triangles and planar convex quadrangles in general position, every rotation, height, density, gravity and point", "why_tests_cant": "It is Archimedes' principle for the computed values, over all meshes.", "anchors": ["meshmagick/hydrostatics.py: compute_hydrostatics"]}
{"id": "C87", "title": "When hydrostatics are reported", "statement": "The hydrostatics of a mesh crossing the sea level are reported exactly when density, gravity, immersed volume and waterplane area are not zero; a body hanging by a vertex (no waterline) gives ValueError; the waterplane area is the vertical projection of the immersed surface.", "quantifier": "every closed mesh of triangles and planar convex quadrangles in general position, every rotation, height, density and gravity", "why_tests_cant": "Universal over meshes; the exceptional cases are degenerate positions.", "anchors": ["meshmagick/hydrostatics.py: compute_hydrostatics"]}
{"id": "C88", "title": "The reported inertia of the displaced water is not about the center of gravity", "statement": "The reported inertia of the displaced water differs from its inertia about the center of gravity given by an explicit amount, twice the mass times products of coordinates of the two centers; it is wrong already for a box whose center of buoyancy is the center of gravity given.", "quantifier": "every closed mesh of triangles and planar convex quadrangles in general position, every position and center of gravity; existence of a box", "why_tests_cant": "The error vanishes when one of the points is the origin, as in simple tests.", "anchors": ["meshmagick/hydrostatics.py: compute_hydrostatics"]}
{"id": "C89", "title": "Reported dimensions", "statement": "The length and breadth at the waterline are the extents of the waterline and the draught is the depth of the deepest point; the overall submerged length and breadth are extents of the corners, at any height, of the faces that are not wholly above the sea, so that they exceed those of the immersed part for a hull with a V section.", "quantifier": "every closed mesh of triangles and planar convex quadrangles in general position, every position; existence of a hull", "why_tests_cant": "Boxes with vertical sides do not show the difference.", "anchors": ["meshmagick/hydrostatics.py: compute_hydrostatics"]}
{"id": "C90", "title": "The full equilibrium search rolls a body that only needs to pitch", "statement": "For a box and a center of gravity in its symmetry plane the first correction of full_equilibrium contains a roll, of the greatest amount allowed, although neither the box nor the load is asymmetric: it comes from the wrong product of roll and pitch in the stiffness matrix.", "quantifier": "existence of a mesh and a center of gravity", "why_tests_cant": "Equilibria are only compared with reference values obtained from the same code.", "anchors": ["meshmagick/hydrostatics.py: full_equilibrium, compute_hydrostatics"]}
{"id": "C91", "title": "Planes given on the command line", "statement": "A plane given as four numbers a b c d, with -p or directly, has the direction of (a, b, c) and contains exactly the points with (a, b, c).x = d |(a, b, c)|; the plane documented by the help text, (a, b, c).x = d, is meant only if d = 0 or (a, b, c) is a unit vector. The six keys name planes through the origin with the normals of the help text, a number chooses among the planes given with -p, and everything else is refused with an exception.", "quantifier": "every list of words on the command line, every list of planes", "why_tests_cant": "All words, all numbers; the discrepancy only shows for normals that are not unit vectors.", "anchors": ["meshmagick/cli.py: main"]}
{"id": "C92", "title": "Converting a file", "statement": "Without an operation the command line writes the mesh of the input file, with its vertices untouched and each face the same cycle of vertices with triangles in standard form, in the format asked for, and touches no other file; from a .mar file written for a mesh it makes the .nem file that would have been written for that mesh with healed triangles.", "quantifier": "every pair of formats, every mesh whose coordinates fit the columns, every disk", "why_tests_cant": "All meshes, all formats; composition of reader, mesh and writer.", "anchors": ["meshmagick/cli.py: main", "meshmagick/mmio.py: load_mesh, write_mesh, load_MAR, write_MAR, write_NEM"]}
{"id": "C93", "title": "Hydrostar files keep the mesh", "statement": "Reading a .hst file written for a mesh with at least one face gives the same faces and every coordinate rounded to 7 significant digits; saving what was read gives the same file. The file has the header, numbered nodes and panels of the format, line by line. A mesh without faces is saved but reading it raises TypeError, and a file with two sections of nodes and panels raises AttributeError although the reader is a loop over sections.", "quantifier": "every list of vertices with finite coordinates (exponents of at most 3 digits), every list of faces with ids of at most 9 digits", "why_tests_cant": "The reader is a backtracking regular expression over the whole text; all numbers, all numbers of vertices and faces.", "anchors": ["meshmagick/mmio.py: load_HST, write_HST"]}
{"id": "C94", "title": "Tecplot files keep the mesh", "statement": "Reading a .tec file written for a mesh with at least one vertex gives the same faces and every coordinate rounded to 7 significant digits, whatever the name of the file (without newline) that is written in its title; saving what was read gives the same file. The file has the title, variables, zone, points and faces of the format, line by line. A mesh without vertices is saved but reading it raises AttributeError.", "quantifier": "every file name without newline, every non-empty list of vertices with exponents of at most 3 digits, every list of faces with ids of at most 9 digits", "why_tests_cant": "A single regular expression with backtracking covers the whole file, including the title with an arbitrary name.", "anchors": ["meshmagick/mmio.py: load_TEC, write_TEC"]}
{"id": "C95", "title": "Diodore files keep the mesh", "statement": "Reading a .dat file written for a mesh with at least one vertex gives every coordinate rounded to 6 significant digits and the same faces, triangles first and then quadrangles, each in the order of the mesh; what was read is not changed by saving and reading it again. The file has numbered nodes and numbered elements by type, line by line. It needs a name and a date without the words of the format: with the name of an element type in the file name, quadrangles are read a second time as triangles. A mesh without vertices is saved but reading it raises IndexError.", "quantifier": "every file name and date without newline and without the words NODE, T3C000 and Q4C000, every non-empty list of vertices with exponents of at most 2 digits, every list of faces whose corners are vertices with ids of at most 7 digits", "why_tests_cant": "Three backtracking regular expressions run over the whole text, including the name of the file; all numbers, all numbers of vertices and faces.", "anchors": ["meshmagick/mmio.py: load_DAT, write_DAT"]}
{"id": "C96", "title": "Gmsh files are read as meshes", "statement": "Reading a Gmsh file of version 2 gives the coordinates of the nodes in the order of the file, and as faces its triangles (with the first corner repeated) and then its quadrangles, with node numbers decreased by one; other elements and other sections have no effect. When the nodes are numbered from one in the order of the file the corners of every face are the nodes of its element; with other numbers, which the format allows, faces silently get wrong corners. Files without nodes or without elements, or without version, raise AttributeError, versions 4 are handed to the other reader and all remaining versions raise RuntimeError.", "quantifier": "every list of nodes and of elements with any types and tags, every other text before, between and after the sections that does not contain the words of the format, every version line", "why_tests_cant": "Greedy regular expressions over the whole file and lazy ones over its lines; all contents of the other sections.", "anchors": ["meshmagick/mmio.py: load_MSH, load_MSH22"]}
{"id": "C97", "title": "VTK files can be read by the format's rules", "statement": "The legacy VTK file written for a mesh is well formed: a reader that follows the format, counting points, polygons and the integers announced for the polygons, gets all the coordinates to six decimals and each face as a polygon with every corner once, counted from zero, and nothing is left over.", "quantifier": "every list of vertices and of faces (also empty ones), every date", "why_tests_cant": "The announced size of the polygon section must agree with what follows for all mixtures of triangles and quadrangles.", "anchors": ["meshmagick/mmio.py: write_VTK"]}
{"id": "C98", "title": "Wavefront files can be read by the format's rules", "statement": "In the .obj file written for a mesh the lines beginning with v give the coordinates of the vertices to six decimals in order, the lines beginning with f give the corners of the faces in order, each once and counted from one, and all other lines are empty or comments; coordinates and ids of any size stay separate words.", "quantifier": "every list of vertices and of faces, every date", "why_tests_cant": "Fields are of fixed width: whether words stay separate must be settled for numbers of any size.", "anchors": ["meshmagick/mmio.py: write_OBJ"]}
{"id": "C99", "title": "Diodore configuration files place bodies", "statement": "Reading a .inp file with one body gives as vertices the nodes of the body's .DAT file moved by the vector of its frame, and as faces those of one section of the .DAT file for each line *ELEMENT, in order, with the corners at the positions of the nodes named there and the first corner of triangles repeated; after the last section the first is used again. For a .DAT file that meshmagick wrote this is the saved mesh, moved, with quadrangles before triangles. The .DAT files are looked for in the directory of the .inp file. A second body with its own nodes gets faces whose indices are all out of range; a second line *NODE without INCREMENT, a line *NODE without FRAME and a blank after the commas of a vector raise errors; an element with a node that is not in the file silently gets the index -2.", "quantifier": "every .inp file made of frames, fields and other lines with any options and white space, every .DAT file with any node numbers, sections and remarks, every sum of doubles", "why_tests_cant": "The file is scanned by regular expressions and put together from several files in a loop with state; all layouts, all orders of sections and all numberings.", "anchors": ["meshmagick/mmio.py: load_INP"]}
{"id": "C100", "title": "XML VTK files keep the mesh in single precision", "statement": "Reading a .vtp file written for a mesh gives the same faces and every coordinate rounded to 24 bits; so does a .vtu file when the mesh has at least three vertices and every face is a triangle or a quadrangle with a last corner of its own. Coordinates of 24 bits come back exactly, and a second round changes nothing. Vertices that differ beyond the 24th bit come back as equal points. In .vtu files a face whose last corner repeats its second or third comes back as another face, and a mesh of fewer than three vertices comes back with three. quick_save always writes a file whose name ends with .vtp.", "quantifier": "every list of vertices of real coordinates and every list of faces; the reading and writing of VTK itself is taken as faithful", "why_tests_cant": "The rounding of all real numbers, all faces, all numbers of vertices.", "anchors": ["meshmagick/mmio.py: write_VTU, write_VTP, load_VTU, load_VTP, _build_vtkUnstructuredGrid, _build_vtkPolyData, _dump_vtk", "meshmagick/mesh.py: quick_save, _vtk_polydata"]}
{"id": "C101", "title": "Datasets read by VTK become meshes", "statement": "A dataset (from a .vtu, .vtp, .vtk, .obj or .wrl file) is read exactly when none of its cells has more than four points; otherwise IndexError is raised. When its cells are triangles and quadrangles, the vertices are its points and the faces stand for its cells, corner by corner, in order. A cell of one or two points, such as a line, silently becomes a face that also has vertex 0 as a corner.", "quantifier": "every list of points and of cells of any sizes", "why_tests_cant": "All mixtures of cells in any order and number.", "anchors": ["meshmagick/mmio.py: _dump_vtk, load_VTU, load_VTP, load_VTK, load_OBJ"]}
{"id": "C102", "title": "VRML files give their first object", "statement": "A .wrl file whose first line names version 2.0 gives the mesh of the first object of the scene and ignores all others. Any other version raises NotImplementedError, a first line that does not name VRML raises AttributeError, and so does an empty scene.", "quantifier": "every first line of the format with any white space and any version, every text after it, every scene", "why_tests_cant": "All header lines and all scenes.", "anchors": ["meshmagick/mmio.py: load_WRL"]}
{"id": "C103", "title": "STL files are read with shared vertices", "statement": "Loading a .stl file gives one triangle for each triangle of the file, in order, whose corners are within 1e-8 of the corners in the file, every vertex being a point of the file; corners with the same coordinates in the file become the same vertex, so that neighbouring triangles are connected. A file without points raises IndexError.", "quantifier": "every list of points and triangles, every sorting function", "why_tests_cant": "All point sets, with coordinates arbitrarily close together, and all orders in which equal values are sorted.", "anchors": ["meshmagick/mmio.py: load_STL", "meshmagick/tools.py: merge_duplicate_rows"]}
{"id": "C104", "title": "MED files give their mesh", "statement": "For a .med file whose arrays have the layout of the format (one coordinate after the other, one corner after the other, counted from one) the vertices are the nodes, and the faces are the triangles, with the first corner repeated, followed by the quadrangles, counted from zero; either kind may be missing. When there are several arrays of a kind the last in the order of the file counts: a file of two meshes can give the nodes of one with the triangles of the other. Without nodes an UnboundLocalError is raised.", "quantifier": "every list of named items, every mesh stored in it", "why_tests_cant": "All numbers of nodes, triangles and quadrangles, all other items of the file and all names.", "anchors": ["meshmagick/mmio.py: load_MED"]}
{"id": "C105", "title": "The hydrostatic report shows the values it is given", "statement": "Every quantity of the record appears in the report behind its own label and in the documented order, as a word that reads back as the value rounded to the digits of the column, provided the coordinates of the centers stay below 10000. The report warns of transversal or longitudinal instability exactly when the corresponding metacentric height is negative and has no other warning; the note on an approximated Lpp is there exactly when Lpp is not trusted. Negative coordinates of 10000 and more run together into a text that is no number. When a gyration radius does not exist there is no report.", "quantifier": "every record of rational values, every arithmetic and every square root function, every version text of one line", "why_tests_cant": "All values, with all roundings to 1, 2, 3 decimals and to 4 or 5 significant digits.", "anchors": ["meshmagick/hydrostatics.py: get_hydrostatic_report"]}
{"id": "C106", "title": "Printed inertias and mesh summaries show the values", "statement": "The text of a rigid body inertia gives, line by line, the mass, the center of gravity, the point of reduction and the three rows of the inertia matrix, and each word reads back as the value rounded to seven significant digits. The text of a mesh gives its name, its numbers of vertices, faces, triangles and quadrangles exactly, and the six bounds of its box rounded to six decimals, each bound behind its own name.", "quantifier": "all rational values with exponents of at most three digits, all names of one line, all counts", "why_tests_cant": "All values and roundings.", "anchors": ["meshmagick/inertia.py: RigidBodyInertia.__str__", "meshmagick/mesh.py: Mesh.__str__"]}
{"id": "C107", "title": "Radioss files give their nodes and shells", "statement": "A .rad file made of a heading, lines of nodes (a number and three decimal coordinates with a point), titles and at least three lines of seven integers is read as the mesh whose vertices are the points of the nodes in the order of the file and whose faces are the last four integers of each line, counted from one. With fewer than three elements, or without any decimal point, AttributeError is raised. The numbers written before the nodes are ignored: when they are not 1, 2, 3... the faces lead to vertices that do not exist. A coordinate written without a point ends the nodes: all the nodes from there on are lost without an error.", "quantifier": "all headings without three points in a row of numbers, all blanks between the numbers, all decimal numbers, all numbers of nodes and elements, any text after a title that follows the elements", "why_tests_cant": "All texts of this layout: the pattern matching is greedy, backtracking and crosses lines.", "anchors": ["meshmagick/mmio.py: load_RAD"]}
{"id": "C108", "title": "Forces of the older class move with the body", "statement": "In hydrostatics_old, when a body moves, every force that shares no array with another one is carried along: its point of application moves rigidly with the body, its value turns when the force is relative and stays when it is absolute, its strength is kept, and forces not belonging to the body stay as they are. The residual of a body is the sum of the buoyancy, the weight and the forces, with their moments about the axes through the origin (not, as documented, about the point of application), and adding a force adds its own part; the weight and the buoyancy are the forces that the object returns on demand. Two forces made with the same array, or one force added twice, are moved twice instead.", "quantifier": "all motions, all lists of forces, all points and values", "why_tests_cant": "All numbers of forces, all rotations and all ways in which arrays are shared.", "anchors": ["meshmagick/hydrostatics_old.py: Force.update, Force.hs_force, Hydrostatics.residual, Hydrostatics.add_force"]}
{"id": "C109", "title": "The mass of an older Hydrostatics object", "statement": "Without a mass, a new body weighs exactly what it displaces and its vertical residual is zero. A mass given to the constructor in tons is taken a thousand times too large: the body has 1000 times this mass or is refused as sinking, even when it could float. The setter of the mass accepts exactly the masses that the whole volume can carry; a mass that is refused with ValueError is kept all the same. The setter changes neither the mesh nor the data.", "quantifier": "all meshes, masses, densities and centers of gravity for which the constructor succeeds", "why_tests_cant": "All meshes and masses.", "anchors": ["meshmagick/hydrostatics_old.py: Hydrostatics.__init__, Hydrostatics.mass, Hydrostatics.is_sinking"]}
{"id": "C110", "title": "Both hydrostatics modules agree", "statement": "Whenever the older class accepts a mesh, its areas, volume, mass, centers, metacentric radii and heights, stiffness and main dimensions are those that compute_hydrostatics gives for the same mesh, center of gravity, density and gravity. Conversely the older class accepts whatever compute_hydrostatics accepts, unless the clipped mesh has a face of less than 1e-10 in area, and then it raises Exception. Two values differ: the newer module puts the forward perpendicular further by the abscissa of the center of buoyancy, and the older class gives for the inertia of the displaced water about the center of buoyancy one that is too large by twice the mass times the products of the coordinates of this center.", "quantifier": "all meshes, centers of gravity, densities, gravities and sorting functions", "why_tests_cant": "All meshes: two implementations are compared on every input.", "anchors": ["meshmagick/hydrostatics_old.py: Hydrostatics._update_hydrostatic_properties", "meshmagick/hydrostatics.py: compute_hydrostatics"]}
{"id": "C111", "title": "set_displacement of the older class", "statement": "set_displacement moves mesh, center of gravity and forces straight up by the correction that it returns, sets the mass, keeps the recorded rotation, and leaves up-to-date data. The correction is reached from zero by steps, each of them the vertical force left divided by the waterplane stiffness and limited by the relaxation, so that it is at most this limit times the number of steps; unless all iterations were used the vertical force left is below the tolerance times the weight.", "quantifier": "all bodies reached by successful calls, all displacements and solver parameters", "why_tests_cant": "All meshes, forces and sequences of calls, and all numbers of iterations.", "anchors": ["meshmagick/hydrostatics_old.py: Hydrostatics.set_displacement"]}
{"id": "C112", "title": "equilibrate of the older class", "statement": "equilibrate moves mesh, center of gravity and forces together by a rigid motion, whose rotation is recorded on top of the former one, to a position where the code that it returns is true: 1 for balanced within the tolerance and stable, 2 for balanced but unstable (only when unstable configurations are allowed), 0 otherwise. Then everything is moved horizontally so that the center of gravity is above the origin. With at least two iterations the search always ends within max_restart times (itermax - 1) passes. With max_iterations set to 1 the limit is missed and the search can go on for ever.", "quantifier": "all bodies reached by successful calls, all random numbers, all solver parameters", "why_tests_cant": "All meshes, forces, sequences of calls and random restarts; the absence of an end cannot be observed.", "anchors": ["meshmagick/hydrostatics_old.py: Hydrostatics.equilibrate"]}
{"id": "C113", "title": "Data of the older class after equilibrate", "statement": "After equilibrate the vertical residual is the one of the equilibrium found and the moments are those about the center of gravity. Only the center of buoyancy follows the last horizontal move: the center of flotation and the clipped mesh are still those before it, so that assigning to zg the value it has already moves the center of buoyancy back and makes is_at_equilibrium false.", "quantifier": "all bodies reached by successful calls; for the last part one box with any random numbers", "why_tests_cant": "All meshes and searches; stale data show only in certain sequences of calls.", "anchors": ["meshmagick/hydrostatics_old.py: Hydrostatics.equilibrate, Hydrostatics.zg"]}
{"id": "C114", "title": "reset of the older class", "statement": "As long as gravity_center is not assigned, reset restores the mesh and the center of gravity given to the constructor and the identity rotation, with up-to-date data, whatever was called before; mass, water density, gravity and the forces stay as they are (the forces are not moved back). Once gravity_center has been assigned a value, set_displacement moves the saved value too and reset gives this value shifted by the correction.", "quantifier": "all sequences of successful calls, all bodies", "why_tests_cant": "All sequences of calls, with arrays shared between attributes.", "anchors": ["meshmagick/hydrostatics_old.py: Hydrostatics.reset, Hydrostatics.gravity_center"]}
{"id": "C115", "title": "Data of the older class follow the calls", "statement": "After the constructor and any sequence of successful calls of the setters (gravity, rho_water, mass, gravity_center, zg, solver parameters), set_displacement, reset and add_force with a new force, the data kept in the object are those of its present mesh, center of gravity, water and gravity, and the clipped mesh kept is that of the present mesh.", "quantifier": "all sequences of calls of any length, all bodies", "why_tests_cant": "All sequences of calls.", "anchors": ["meshmagick/hydrostatics_old.py: Hydrostatics"]}
{"id": "C116", "title": "Parameters of the solver of the older class", "statement": "The setters of the solver parameters take a value in range (relative tolerance and vertical relaxation strictly between 0 and 1, angular relaxation strictly between 0 and 10, at least one iteration, no negative number of restarts) and change nothing else in the object; they refuse any other value with AssertionError and leave the object as it is. No other call changes these parameters, so that they stay in range after any sequence of calls.", "quantifier": "all values, all sequences of calls of any length, all bodies", "why_tests_cant": "All values and all sequences of calls.", "anchors": ["meshmagick/hydrostatics_old.py: Hydrostatics.reltol, Hydrostatics.theta_relax, Hydrostatics.z_relax, Hydrostatics.max_iterations, Hydrostatics.max_restart, Hydrostatics.allow_unstable_on, Hydrostatics.allow_unstable_off"]}
{"id": "C117", "title": "The report of the older class shows its values", "statement": "Every quantity appears in the report of the older class behind its own label and in order, as words that read back as the values rounded to the digits of the column, provided that the coordinates of the centers stay below 10000. The three residuals, absolute and relative, are three such words exactly when the two moments have no minus sign: a negative moment runs together with the number before it into a text that is no number.", "quantifier": "all rational values, every division of doubles", "why_tests_cant": "All values, with all roundings and all exponents.", "anchors": ["meshmagick/hydrostatics_old.py: Hydrostatics.get_hydrostatic_report"]}
{"id": "C118", "title": "Clipper objects, their setters and the planes they share", "statement": "A MeshClipper that was just made, or whose plane or tolerance was just set, shows in all its properties the clipping of its mesh by its plane, exactly as a new clipper would, and a setter fails exactly when a new clipper could not be made. It stays so under any calls on other clippers, planes and meshes. A setter that fails keeps the new plane or tolerance but loses the old data: clipped_mesh raises KeyError, and so does everything else when the mesh is all on one side; when curves are open and refused, only the lower, crown and upper meshes can be read. Changing a plane or a mesh in place changes nothing that is shown. All clippers made without a plane share one: raising it through one of them makes the others out of date, assigning to another the tolerance that it has already then fails, and the hydrostatics, which use the same plane, refuse a body that floats; as long as nobody changes it the hydrostatics are those for z = 0.", "quantifier": "all sequences of calls on any number of meshes, planes and clippers, all meshes and planes, all sorting functions", "why_tests_cant": "All sequences of calls with shared objects, and all meshes.", "anchors": ["meshmagick/mesh_clipper.py: MeshClipper.__init__, plane, vicinity_tol, assert_closed_boundaries_on, assert_closed_boundaries_off, closed_polygons_vertices, open_lines_vertices", "meshmagick/hydrostatics.py: compute_hydrostatics"]}
{"id": "C119", "title": "Arrays held by meshes and by callers", "statement": "However arrays are created, passed, kept and written, every mesh has arrays of its own: constructor, assignments, copy, sum and extraction copy the values, so that a caller's array is never changed by a mesh and writing into it never changes a mesh; a call on one mesh changes no other mesh. A mesh whose arrays nobody writes into answers as if its calls had been the whole program. An array mesh.vertices or mesh.faces kept by the caller is after each kind of call either still that of the mesh or left as it was: translate_x and mirror write into the vertices while translate, translate_y and translate_z replace them, merge_duplicates and remove_unused_vertices replace them exactly when their number changes, triangulate_quadrangles alters the faces kept, translations move kept centers and flip_normals reverses kept normals. Writing into mesh.vertices leaves a volume that was asked before as it is, whereas mesh.vertices += t updates it.", "quantifier": "all programs with any number of meshes and arrays, all values, all sorting functions", "why_tests_cant": "All programs, with all patterns of sharing between arrays.", "anchors": ["meshmagick/mesh.py: Mesh.__init__, vertices, faces, faces_normals, faces_centers, faces_areas, copy, __add__, extract_faces, translate, translate_x, translate_y, translate_z, rotate_matrix, scale, flip_normals, merge_duplicates, heal_normals, remove_unused_vertices, heal_triangles, remove_degenerated_faces, heal_mesh, triangulate_quadrangles, symmetrize, mirror, volume"]}
{"id": "C120", "title": "Ids and names of meshes", "statement": "The id of a mesh is the number of meshes constructed before it and no call changes ids or names; a mesh without a name is called mesh_ followed by its id, a sum joins both names by an underscore, and an extracted mesh says what it was extracted from. Two meshes have the same id exactly when they are copies of the same mesh: ids are unique in programs that never copy, and names in programs that only construct meshes without a name. A copy has the same id and name as the mesh it was copied from, and a given name can be that of a mesh without one.", "quantifier": "all programs with any number of meshes", "why_tests_cant": "All programs.", "anchors": ["meshmagick/mesh.py: Mesh.__init__, id, name, copy, __add__, extract_faces"]}
{"id": "C121", "title": "Merging vertices in double precision", "statement": "With numpy's double precision, merging rows with a tolerance gives exactly what exact arithmetic would give for a tolerance that is larger by at most one part in 2^53: rows merged together differ by at most that, equal rows are always merged, clusters separated by more are merged exactly, and every face of a mesh stays within 1e-8 (1 + 3/2^53) of its place. With tolerance 0, or with coordinates on a common binary grid, the result is that of exact arithmetic. It is not so in general: two rows farther apart than the tolerance can be merged.", "quantifier": "all arrays of doubles, all tolerances in the normal range, all sorting functions", "why_tests_cant": "All doubles, including those where roundings decide.", "anchors": ["meshmagick/tools.py: merge_duplicate_rows", "meshmagick/mesh.py: Mesh.merge_duplicates"]}
{"id": "C122", "title": "Mirrors and symmetries in double precision", "statement": "On the planes of the axes through the origin, mirror and symmetrize in double precision make no rounding error at all, however numpy orders the sums: the normal is stored as given, each vertex is moved exactly to its mirror image, mirroring twice gives back the very same mesh, and symmetrized meshes have every face and its mirror image in place. On any other plane each coordinate is within 71/2^53 of the largest coordinate of its exact place. Mirroring twice on a plane away from the origin does not in general give the vertices back.", "quantifier": "all meshes of doubles, all planes, all orders of summation and fused operations, all sorting functions", "why_tests_cant": "All doubles and every implementation of np.dot.", "anchors": ["meshmagick/mesh.py: Mesh.mirror, Mesh.symmetrize, Plane.normal, Plane.get_point_dist_wrt_plane"]}
{"id": "C123", "title": "Planes and cut edges in double precision", "statement": "In double precision the normal of a plane is within 25/2^53 of the exact unit vector and has no coordinate above 1; the distance of a point is within 23/2^53 of the largest coordinate of the exact distance; an edge whose end points lie on both sides of the plane by more than 17/2^53 times that size is always cut, never refused, at a point next to the edge and to the plane. Hence edges between vertices that the clipper classified above and below, with any tolerance of at least 40/2^53 of the size, can be cut, even if the distances and the intersection are computed with sums in different orders.", "quantifier": "all points, planes and sizes, all orders of summation and fused operations", "why_tests_cant": "All doubles and every implementation of np.dot; the failure would appear at rare coordinates only.", "anchors": ["meshmagick/mesh.py: Plane.normal, Plane.get_point_dist_wrt_plane, Plane.get_edge_intersection", "meshmagick/mesh_clipper.py: MeshClipper._vertices_positions_wrt_plane"]}
{"id": "C124", "title": "Translations and scalings in double precision", "statement": "In double precision a translation or a scaling moves each coordinate to within one part in 2^53 of the exact result. Translating there and back returns each coordinate within 3/2^53 of the sizes of the coordinate and of the displacement, exactly when all are on a common binary grid, but not exactly in general. Scaling by a power of two of at least 1 is exact.", "quantifier": "all meshes and displacements of doubles, all factors", "why_tests_cant": "All doubles.", "anchors": ["meshmagick/mesh.py: Mesh.translate, Mesh.scale"]}
{"id": "C125", "title": "Areas, normals, centers and volumes in double precision", "statement": "In double precision, with L the largest coordinate: every face area is within 250 L^2/2^53 of the exact area, whatever the shape of the face. For faces larger than 1000 L^2/2^53 that are not folded, normals are within 400 L^2/2^53 over the area, and centers within 1500 L^3/2^53 over the area, of those of exact arithmetic. The total area of n faces is within n (2 A + 380 L^2)/2^53 of the exact one A, and the volume within n L (6 A + 1400 L^2)/2^53 of the volume in exact arithmetic, which for flat faces is the volume enclosed.", "quantifier": "all meshes of doubles with any number of faces up to 10^14, all orders of summation and fused operations", "why_tests_cant": "All doubles and every implementation of np.sum and np.linalg.norm; rounding errors add up over meshes of any size.", "anchors": ["meshmagick/mesh.py: Mesh._faces_properties, Mesh.faces_areas, Mesh.faces_normals, Mesh.faces_centers, Mesh._compute_faces_integrals, Mesh.volume"]}
{"id": "C126", "title": "Clipping in double precision", "statement": "Let L be the largest coordinate and g a length. If every vertex is either nearer to the plane than the tolerance or at least at g of it, by more than 23 L/2^53, if the coordinates of vertices and cut points are equal or differ by more than 2/100000, and if 190 L^2/g/2^53 is at most 2.5e-9, then the clipper in double precision classifies the faces as in exact arithmetic and makes the same clipped mesh, the same closed polygons and the same open lines, up to the numbering of the vertices and to displacements of at most 190 L^2/g/2^53 along each axis; and it raises an exception exactly when exact arithmetic does, the same one. In particular, on closed meshes of convex faces, all boundaries are closed polygons that follow the waterline.", "quantifier": "all meshes, planes and tolerances as stated, all orders of summation and fused operations, all sorting functions", "why_tests_cant": "All doubles and every implementation of np.dot and np.argsort; a difference would show on rare meshes only.", "anchors": ["meshmagick/mesh_clipper.py: MeshClipper", "meshmagick/mesh.py: Plane.get_edge_intersection, Mesh.merge_duplicates, Mesh.__add__"]}
{"id": "C127", "title": "Wetted surface, displaced volume and mass in double precision", "statement": "In double precision, a body is put in its position within 23 L/2^53 along each axis, L being the largest coordinate. Of a closed body in its position whose vertices are at the sea level or at least at g of it, by more than 24 L/2^53, with coordinates equal or further apart than 2/100000, and whose immersed faces are larger than 1010 L^2/2^53 + 100 L d with d = 190 L^2/g/2^53, the hydrostatics report without exception a wetted surface within n ((3 A + 400 L^2)/2^53 + 36 L d) of the exact area A of the immersed surface, and a displaced volume within n (L (11 A + 1500 L^2)/2^53 + 270 L^2 d) of the exact volume under the sea level, n being the number of immersed faces; the displaced mass is the density times that volume, with a like bound.", "quantifier": "all bodies as stated, all densities of at least 10^-6, all orders of summation and fused operations, all sorting functions", "why_tests_cant": "All doubles and every implementation of np.dot, np.sum and np.argsort; clipping, merging and integration all add their errors.", "anchors": ["meshmagick/hydrostatics.py: compute_hydrostatics", "meshmagick/mesh_clipper.py: MeshClipper", "meshmagick/mesh.py: Mesh.eval_plain_mesh_inertias, Mesh.faces_areas, Mesh.rotate_matrix, Mesh.translate_z"]}
{"id": "C128", "title": "Keys of the viewer", "statement": "In any session of the viewer made of key presses and additions of objects, points, lines and arrows, the picture is exactly the two texts, what was added, and what the keys n (normals), b (axes), h (sea level) and g (planes) have switched on; each is on when its key was pressed an odd number of times since there is an object. The only errors are IndexError at b, h or g while there is no object. Pressing a key twice gives the same picture. The methods normals_on and normals_off do not do what they say: they change nothing of the picture, and the key n fails ever after; plane_on called twice leaves a plane that no key removes. Only the keys e and q close the window, and a screenshot holds the picture at the time c was last pressed.", "quantifier": "all sessions of any length, all objects", "why_tests_cant": "All sequences of keys and additions.", "anchors": ["meshmagick/MMviewer.py: MMViewer.on_key_press, show_normals, show_axes, plane_on, axes_planes_on, normals_on, normals_off, add_polydata, add_point, add_line, add_vector"]}
{"id": "C129", "title": "Planes of the viewer", "statement": "The planes Oxy, Oxz and Oyz that the viewer draws hold the projections of all points of the first object, and reach exactly a tenth of its extent further on each side. They are not blue, green and red as the code sets out to do: the second is red and the third keeps the color white.", "quantifier": "all objects with at least a point", "why_tests_cant": "All clouds of points, flat ones included.", "anchors": ["meshmagick/MMviewer.py: MMViewer.plane_on, axes_planes_on"]}
{"id": "C130", "title": "File saved by the viewer", "statement": "The key x writes the object added last. From the window of Mesh.show this is always the mesh, whatever other keys are pressed, and without that key no file is written. From the window of Hydrostatics.show it is never the main object, the mesh, as documented, but the point of the last force or the line to the center of buoyancy. Both windows show the objects that they are opened for.", "quantifier": "all meshes, positions, forces and sequences of keys", "why_tests_cant": "All sessions.", "anchors": ["meshmagick/MMviewer.py: MMViewer.save, on_key_press", "meshmagick/mesh.py: Mesh.show", "meshmagick/hydrostatics_old.py: Hydrostatics.show"]}
{"id": "C131", "title": "Inertia of full bodies in double precision", "statement": "In double precision, let L be the largest coordinate, A the area and V the volume enclosed by a closed mesh of n flat faces larger than 1000 L^2/2^53, with V at least 2 n L (15 A + 2810 L^2)/2^53. For a density rho, the mass of eval_plain_mesh_inertias is within |rho| n L (8 A + 1410 L^2)/2^53 of rho V, the center of gravity within n L (1 + 2 q + 1030 p + q (6 q + 940 p))/2^53 of the centroid of the volume along each axis, with q = L A/V and p = L^3/V, the moments within |rho| n (4 A L^3 + 1040 L^5)/2^53 and the products within |rho| n (3 A L^3 + 800 L^5)/2^53 of the exact integrals over the volume. The matrix is exactly symmetric.", "quantifier": "all meshes as stated with up to 10^14 faces, all densities of at least 10^-6, all orders of summation and fused operations", "why_tests_cant": "All doubles and every implementation of np.sum and np.linalg.norm; rounding errors add up over meshes of any size and the center of gravity divides by a volume with errors.", "anchors": ["meshmagick/mesh.py: Mesh.eval_plain_mesh_inertias, Mesh._compute_triangles_integrals, Mesh._compute_faces_integrals"]}
{"id": "C132", "title": "Inertia of hollow bodies in double precision", "statement": "In double precision, let L be the largest coordinate and A the area of a mesh of n faces of any shape, with A at least 8 n (A + 190 L^2)/2^53. For a mass s per unit of surface, the mass of eval_shell_mesh_inertias is within |s| n (6 A + 385 L^2)/2^53 of s A, the center of gravity within n L (8 + 1400 L^2/A)/2^53 of the centroid of the surface along each axis, the moments within |s| n (13 A L^2 + 1320 L^4)/2^53 of the exact integrals over the surface, and the products within |s| n (16 A L^2 + 1760 L^4)/2^53 of the exact integrals plus the error that the formula of the code has even without roundings. The matrix is exactly symmetric.", "quantifier": "all meshes as stated with up to 10^14 faces, all densities and thicknesses whose product is at least 10^-6, all orders of summation and fused operations", "why_tests_cant": "All doubles and every implementation of np.sum and np.linalg.norm; the wrong formula of the products must be told apart from rounding errors.", "anchors": ["meshmagick/mesh.py: Mesh.eval_shell_mesh_inertias, Mesh._compute_triangles_integrals, Mesh._compute_faces_integrals"]}
{"id": "C133", "title": "Center of buoyancy in double precision", "statement": "In double precision, let a body in its position be as in the property on its displacement (largest coordinate L, vertices at the sea level or at g of it, d = 190 L^2/(2^53 g), n faces under water of area A in total), and V its immersed volume, at least 2 n (L (17 A + 2905 L^2)/2^53 + 527 L^2 d). compute_hydrostatics finds the center of buoyancy within n L ((1 + 3 q + 1032 p + q (6 q + 970 p))/2^53 + (255 + 176 q) t) of the centroid of the immersed volume along each axis, with q = L A/V, p = L^3/V and t = L^2 d/V. Reported in the frame of the mesh, a center found up to e is within 54 L/2^53 + 3 e + h L of the point of the body, for a matrix that is a rotation up to h.", "quantifier": "all bodies and positions as stated, all densities, all orders of summation, of sorting and fused operations", "why_tests_cant": "All doubles and every implementation of np.sum, np.dot and np.argsort; the errors of the cut at the sea level, of the sums and of the volume that divides them all play together.", "anchors": ["meshmagick/hydrostatics.py: compute_hydrostatics", "meshmagick/mesh.py: Mesh.eval_plain_mesh_inertias", "meshmagick/mesh_clipper.py: MeshClipper"]}
{"id": "C134", "title": "Waterplane in double precision", "statement": "In double precision, let a body in its position be as in the property on its displacement (largest coordinate L, vertices at the sea level or at g of it, d = 190 L^2/(2^53 g)), with n sides in its waterline. The six sums over the sides of the waterline in compute_hydrostatics give, whatever fills the waterline, its area within n ((5 n + 22) L^2/2^53 + 7 L d), the first moments within n ((4 n + 29) L^3/2^53 + 8 L^2 d) and the second moments within n ((2 n + 16) L^4/2^53 + 5 L^3 d) of the exact integrals, and the product of the coordinates within n ((2 n + 21) L^4/2^53 + 6 L^3 d) of the exact integral less the term that the formula of the code misses even without roundings. The smallest and largest coordinates of the waterline are found within d. With at_cog the moments are about the center of buoyancy as computed, and 2 L and d + 5 L/2^53 replace L and d.", "quantifier": "all bodies as stated with up to 10^14 sides in the waterline, all triangulations of the waterplane, all orders of sorting and of the sums in np.dot", "why_tests_cant": "All doubles, and every implementation of np.dot and np.argsort that the cut at the sea level relies on; the errors add up along waterlines of any length and in several polygons.", "anchors": ["meshmagick/hydrostatics.py: compute_hydrostatics", "meshmagick/mesh_clipper.py: MeshClipper"]}
{"id": "C135", "title": "Stability in double precision", "statement": "In double precision, suppose that compute_hydrostatics has the integrals of the waterplane (area A, center at (X, Y) from the point of reduction, product P, squares S4 and S5) up to e0 ... e5, the displaced volume V up to eV, and the heights of the centers of gravity and buoyancy up to eg and eb, with e0 at most A/5 and eV at most V/4. Then it reports the metacentric radii S5/V and S4/V within 2 (e + r eV)/V + r/2^53 of each (r the radius, e its integral's error), the heights above the center of gravity within twice that, eg, eb and roundings, the center of flotation within 4 (e + |X| e0)/A and roundings, each coefficient of the stiffness within rho g times the error of its integral, or of the volume and the height, with a few roundings, the lengths at the waterline within twice the error of its extents; the stiffness is exactly symmetric and its coefficients below 1e-4 are 0. The center of flotation is then given in the frame of the mesh, at the point of the body that is there, up to roundings and the errors of the rotation matrix.", "quantifier": "all values of the integrals, volumes and heights and all errors as stated, with rho g of at least 10^-6; with and without at_cog", "why_tests_cant": "All doubles: quotients of two numbers with errors, differences of near heights and a threshold that roundings can cross.", "anchors": ["meshmagick/hydrostatics.py: compute_hydrostatics"]}
{"id": "C136", "title": "Change of the point of reduction in double precision", "statement": "In double precision, let L bound the coordinates of the center of gravity and of the points of reduction. Moving an inertia held at the center of gravity to another point (reduction_point) gives each entry of the matrix of the body at that point, by the theorem of parallel axes, within one rounding of it and 177 |m| L^2/2^53, for a mass m. shift_at_cog adds the same term, within the same errors, where it should subtract it. Both keep the mass, the center and the exact symmetry of the matrix, and shift_at_cog leaves an inertia that already is at the center of gravity exactly as it is.", "quantifier": "all inertias of doubles, all masses, all points with coordinates up to L, for any L of at least 2^-200, all orders of summation and fused operations", "why_tests_cant": "All doubles and every implementation of np.dot; cancellation in the differences and between terms of any size.", "anchors": ["meshmagick/inertia.py: RigidBodyInertia.reduction_point, RigidBodyInertia.shift_at_cog, RigidBodyInertia.at_cog, RigidBodyInertia._huygens_transport"]}
