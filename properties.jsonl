{"id": "C01", "title": "Newton's third law", "statement": "For any two point-mass arrays with no coincident points, the force point_matrix_gravity(a,b) returns is minus the force of point_matrix_gravity(b,a), and the two torques about the origin are opposite; the same for point_matrix_yukawa.", "quantifier": "all pairs of finite point-mass arrays (any sizes, any masses and positions, no point of one coincident with a point of the other); all alpha, lambda<>0", "why_tests_cant": "the arrays and positions range over a continuum and every size; a test samples a few configurations", "anchors": ["newt/glib.py:gmmr2_array", "newt/glib.py:yukawa_array", "newt/glib.py:point_matrix_gravity", "newt/glib.py:point_matrix_yukawa"]}
{"id": "C02", "title": "Superposition of point-mass forces", "statement": "Force and torque from/on the concatenation of two point-mass arrays are the sums of those from/on the parts, and do not depend on the order of the points.", "quantifier": "all arrays, all splits and all permutations", "why_tests_cant": "all sizes and orders", "anchors": ["newt/glib.py:point_matrix_gravity", "newt/glib.py:point_matrix_yukawa"]}
{"id": "C03", "title": "The point force is the gradient of the potential", "statement": "The force on a unit probe returned by gmmr2_array / yukawa_array is minus the gradient of the sum of -G m1 m2/r (resp. -alpha G m1 m2 exp(-r/lambda)/r) over the sources, at every probe position away from the sources.", "quantifier": "all source arrays, all probe positions off the sources", "why_tests_cant": "a derivative statement at every point of space", "anchors": ["newt/glib.py:gmmr2_array", "newt/glib.py:yukawa_array"]}
{"id": "C04", "title": "Rigid-motion covariance of force and torque", "statement": "Translating both arrays by t leaves the force unchanged and adds t x F to the torque; rotating both arrays with rotate_point_array rotates force and torque by the same rotation.", "quantifier": "all arrays, all translation vectors, all angles and non-zero axes", "why_tests_cant": "continuum of configurations and motions", "anchors": ["newt/glib.py:translate_point_array", "newt/glib.py:rotate_point_array", "newt/glib.py:point_matrix_gravity", "newt/glib.py:point_matrix_yukawa"]}
{"id": "C05", "title": "translate_point_array is a group action", "statement": "Translation by the zero vector is the identity, successive translations add, masses are unchanged and every point moves by exactly the vector; a 1-D [m,x,y,z] input behaves like the one-row array.", "quantifier": "all arrays and vectors", "why_tests_cant": "unbounded arrays, all vectors", "anchors": ["newt/glib.py:translate_point_array"]}
{"id": "C06", "title": "rotate_point_array is a proper rotation about the axis", "statement": "For a non-zero axis it keeps the masses, distances and scalar products, is orientation preserving, fixes points on the axis, does not depend on the axis length, turns by exactly theta (angles about the same axis add, 2 pi is the identity), and coincides with the coordinate rotations for the coordinate axes; for the zero axis every coordinate of the result is not finite.", "quantifier": "all arrays, all angles, all axes", "why_tests_cant": "continuum of axes and angles", "anchors": ["newt/glib.py:rotate_point_array"]}
{"id": "C07", "title": "Exactly coincident points are the only failures of the point-force code", "statement": "gmmr2_array and point_matrix_gravity return finite values exactly when no target coincides with a source.", "quantifier": "all arrays", "why_tests_cant": "all configurations, including coincidence anywhere in the arrays", "anchors": ["newt/glib.py:gmmr2_array", "newt/glib.py:point_matrix_gravity"]}
{"id": "C08", "title": "qmoments computes the regular solid-harmonic moments", "statement": "qmoments(L, arr)[l, L+m] = sum_i m_i r_i^l conj(Y_lm(theta_i,phi_i)), for every |m|<=l<=L, zero in the unused corners, when no point is at the origin or all points at the origin come last.", "quantifier": "all L, all point arrays, all (l,m)", "why_tests_cant": "every degree and every array", "anchors": ["newt/pg2Multi.py:qmoments", "newt/pg2Multi.py:qmoment"]}
{"id": "C09", "title": "qmoments fails exactly when an origin point precedes another point", "statement": "qmoments(L>=1, arr) raises IndexError iff some point at the origin precedes a point away from the origin (phi and theta, already filtered by rids, are indexed by rids again); otherwise it returns the moments.", "quantifier": "all L, all arrays", "why_tests_cant": "the failure depends on the order of the points anywhere in an unbounded array", "anchors": ["newt/pg2Multi.py:qmoments"]}
{"id": "C10", "title": "Outer moments of points", "statement": "Qmomentsb(L, arr)[l,L+m] = sum_i m_i Y_lm/r_i^(l+1) when no point is at the origin; if any point is at the origin the whole result is zero (the other points' contributions are lost).", "quantifier": "all L, arrays, (l,m)", "why_tests_cant": "all arrays and degrees", "anchors": ["newt/pg2Multi.py:Qmomentsb", "newt/pg2Multi.py:Qmomentb"]}
{"id": "C11", "title": "Reality symmetry of every moment producer", "statement": "Every function that returns a moment array (point-mass, analytic shape, translated, read from file) returns one with q(l,-m) = (-1)^m conj q(l,m) and zeros where |m|>l.", "quantifier": "all L, all shape parameters, all arrays", "why_tests_cant": "all degrees and parameters", "anchors": ["newt/pg2Multi.py", "newt/qlm.py", "newt/bigQlm.py", "newt/translations.py", "newt/read_multiFor.py"]}
{"id": "C12", "title": "Monopole equals the mass", "statement": "The q00 entry is mass/sqrt(4 pi) for every point array and every shape of qlm.py, and density times the volume of the documented solid over sqrt(4 pi) for the shapes of qlmACH.py (the holes cylhole and cylhole2 are treated in C39).", "quantifier": "all L, all parameters accepted", "why_tests_cant": "all parameters", "anchors": ["newt/pg2Multi.py:qmoments", "newt/qlm.py"]}
{"id": "C13", "title": "Moments are additive and linear in mass", "statement": "Moments of a concatenation are the sum of the moments, scaling masses scales the moments and the order of points is irrelevant.", "quantifier": "all arrays", "why_tests_cant": "all arrays, all splits", "anchors": ["newt/pg2Multi.py:qmoments", "newt/pg2Multi.py:Qmomentsb"]}
{"id": "C14", "title": "Clebsch-Gordan implementations agree", "statement": "cgCoeff and cgCoeff2 return the same value for all integer arguments.", "quantifier": "all integer sextuples, including invalid ones", "why_tests_cant": "six unbounded integers", "anchors": ["newt/clebschGordan.py:cgCoeff", "newt/clebschGordan.py:cgCoeff2"]}
{"id": "C15", "title": "Clebsch-Gordan selection rules and closed forms", "statement": "The coefficient is 0 when M<>m1+m2, |m|>j, or the triangle rule fails; for J=j1+j2 it equals the stretched closed form and for J=j2-j1 the lowered closed form; changing the signs of all m multiplies by (-1)^(j1+j2-J).", "quantifier": "all integer arguments", "why_tests_cant": "unbounded integers", "anchors": ["newt/clebschGordan.py:cgCoeff", "newt/clebschGordan.py:cgCoeff2"]}
{"id": "C16", "title": "Translating moments = moments of the translated body (Clebsch-Gordan path)", "statement": "translations.translate_qlm(qmoments(L,P), t) = qmoments(L, translate_point_array(P,t)), exactly, for every degree and order.", "quantifier": "all L, all point arrays, all vectors t", "why_tests_cant": "exact addition theorem for all degrees", "anchors": ["newt/translations.py:translate_qlm", "newt/pg2Multi.py:qmoments", "newt/glib.py:translate_point_array"]}
{"id": "C17", "title": "Translations of moments compose", "statement": "translate_qlm by t then u equals translate_qlm by t+u, the zero vector is the identity, and translation by -t undoes translation by t, for every symmetric moment array.", "quantifier": "all L, all moment arrays with the reality symmetry, all vectors", "why_tests_cant": "all degrees, all arrays", "anchors": ["newt/translations.py:translate_qlm"]}
{"id": "C18", "title": "Recursive and Clebsch-Gordan translations agree", "statement": "translationRecurs.translate_qlm returns the same moments as translations.translate_qlm for all inputs with the reality symmetry (L>=1 off-axis).", "quantifier": "all L>=1, all moment arrays, all vectors", "why_tests_cant": "two algorithms compared on all inputs", "anchors": ["newt/translationRecurs.py:translate_qlm", "newt/translationRecurs.py:transl_newt_z_RR", "newt/translationRecurs.py:apply_trans_mat", "newt/translations.py:translate_qlm"]}
{"id": "C19", "title": "Coaxial translation matrices act as the z-translation", "statement": "apply_trans_mat(q, transl_newt_z_RR(L,d)) of the moments of P equals the moments of P shifted by d along z for d<>0 of either sign; the matrices satisfy the one-parameter group law; d=0 gives non-finite matrices; a list of wrong length raises ValueError.", "quantifier": "all L, all d, all arrays", "why_tests_cant": "all degrees", "anchors": ["newt/translationRecurs.py:transl_newt_z_RR", "newt/translationRecurs.py:apply_trans_mat"]}
{"id": "C20", "title": "Outer translations", "statement": "transl_newt_z_SS satisfies the group law at fixed truncation, is adjoint to the inner translation, and translations.translate_Qlmb equals translationRecurs.translate_Qlmb.", "quantifier": "all L, all vectors", "why_tests_cant": "all degrees", "anchors": ["newt/translationRecurs.py:transl_newt_z_SS", "newt/translations.py:translate_Qlmb", "newt/translationRecurs.py:translate_Qlmb"]}
{"id": "C21", "title": "Inner-to-outer conversion", "statement": "translate_q2Q of the two modules agree (r<>0), and for a point mass at the origin give exactly the outer moments of that mass at rPrime.", "quantifier": "all L, all vectors r<>0", "why_tests_cant": "all degrees and vectors", "anchors": ["newt/translations.py:translate_q2Q", "newt/translationRecurs.py:translate_q2Q"]}
{"id": "C22", "title": "q2Q at the zero vector", "statement": "translationRecurs.translate_q2Q with the zero vector returns a copy of the inner moments labelled as outer, translations.translate_q2Q returns non-finite values.", "quantifier": "all L, all moment arrays", "why_tests_cant": "all inputs", "anchors": ["newt/translations.py:translate_q2Q", "newt/translationRecurs.py:translate_q2Q"]}
{"id": "C23", "title": "Rotating moments = moments of the rotated body", "statement": "rotate_qlm(qmoments(L,P), alpha, beta, gamma) = qmoments(L, Rz(alpha) Ry(beta) Rz(gamma) P) for all degrees and all angles, where the body is rotated with rotate_point_array.", "quantifier": "all L, all point arrays, all Euler angles", "why_tests_cant": "recursion correctness at every degree for a continuum of angles", "anchors": ["newt/rotations.py:rotate_qlm", "newt/rotations.py:wignerDl", "newt/rotations.py:rotate_H_recurs", "newt/pg2Multi.py:qmoments"]}
{"id": "C24", "title": "Recursive Wigner matrices equal the explicit formula", "statement": "wignerDl(L,a,b,g)[l] = Dl(l,a,b,g) entrywise for all l<=L and all angles (L>=1), including beta outside [0,pi].", "quantifier": "all L>=1, all l<=L, all angles", "why_tests_cant": "recursion vs closed form at every degree", "anchors": ["newt/rotations.py:wignerDl", "newt/rotations.py:dlmn", "newt/rotations.py:rotate_H_recurs", "newt/rotations.py:Dl", "newt/rotations.py:Dlmn"]}
{"id": "C25", "title": "Wigner matrices are unitary and compose", "statement": "Dl(l,a,b,g) times its conjugate transpose is the identity; Dl(0,0,0)=I; rotating by (a,b,g) and then (-g,-b,-a) gives back the moments; z-rotations add.", "quantifier": "all l, all angles", "why_tests_cant": "all degrees", "anchors": ["newt/rotations.py:Dl", "newt/rotations.py:rotate_qlm", "newt/rotations.py:rotate_qlm_Ds"]}
{"id": "C26", "title": "Degree-zero Wigner call fails", "statement": "wignerDl(0,...) and dlmn(0,...) raise TypeError because rotate_H_recurs(0,..) returns a float; hence translationRecurs translations of a degree-0 array off the z axis and multipoleLib.torque with degree-0 moments raise.", "quantifier": "all angles, all vectors off the z-axis", "why_tests_cant": "all angles", "anchors": ["newt/rotations.py:rotate_H_recurs", "newt/rotations.py:wignerDl", "newt/translationRecurs.py:translate_qlm", "newt/multipoleLib.py:torque"]}
{"id": "C27", "title": "rotate_qlm_Ds rejects mismatched matrices silently", "statement": "With a list of the wrong length rotate_qlm_Ds and rotate_qlm_Ds_right return the input unchanged; with matching length the right multiplication is the transpose action, so that the bilinear pairing is preserved.", "quantifier": "all arrays and lists", "why_tests_cant": "all sizes", "anchors": ["newt/rotations.py:rotate_qlm_Ds", "newt/rotations.py:rotate_qlm_Ds_right"]}
{"id": "C28", "title": "force_basis is the gradient of the solid harmonics", "statement": "bX,bY,bZ [l,L+m] are the x-, y-, z- derivatives of the regular solid harmonics S_l^m(x,y,z), at every point including the origin (L>=1), for every l<=L, |m|<=l.", "quantifier": "all L>=1, all positions, all (l,m)", "why_tests_cant": "recursion correctness at every degree and point", "anchors": ["newt/multipoleLib.py:force_basis"]}
{"id": "C29", "title": "force_basis(0,0,0,0) fails", "statement": "For L=0 at the origin force_basis (and multipole_force) raises IndexError while for every other point it returns zeros.", "quantifier": "L=0, all positions", "why_tests_cant": "exceptional point of a continuum", "anchors": ["newt/multipoleLib.py:force_basis", "newt/multipoleLib.py:multipole_force"]}
{"id": "C30", "title": "multipole_force is the gradient of the interaction (the work function)", "statement": "multipole_force(L,q,Q,r) is the gradient in r of the truncated interaction sum_{l<=L} 4 pi G/(2l+1) sum_m q'_lm(r) Q_lm with q'(r) the moments translated by r, is real for symmetric moments, and multipole_force_m's columns sum to it.", "quantifier": "all L, all symmetric moments, all positions", "why_tests_cant": "all degrees, derivative at every point", "anchors": ["newt/multipoleLib.py:multipole_force", "newt/multipoleLib.py:multipole_force_m"]}
{"id": "C31", "title": "torque_lm is the derivative of the interaction under rotation", "statement": "The sum of torque_lm's nlm is -dV/dphi of the truncated interaction when q is rotated about z; nc is real, ns imaginary-free combination as consumed by torques_at_angle; torques_at_angle(nc,ns,phi) equals the torque sum of the moments rotated by phi about z (and -phi for outer=True).", "quantifier": "all L, all symmetric moments, all angles", "why_tests_cant": "all degrees and angles", "anchors": ["newt/multipoleLib.py:torque_lm", "newt/multipoleLib.py:torques_at_angle"]}
{"id": "C32", "title": "torque_lm shape errors", "statement": "torque_lm (and torque) raises ValueError whenever the two arrays have different degrees, both at least 1, although minL suggests otherwise; if one of them is 1x1, torque_lm broadcasts and returns zeros of the larger shape.", "quantifier": "all pairs of degrees", "why_tests_cant": "all sizes", "anchors": ["newt/multipoleLib.py:torque_lm"]}
{"id": "C33", "title": "torque for a displaced rotated sensor", "statement": "multipoleLib.torque(q,Q,euler,rvec,'inner-inner') has the same total as torque_lm of the rotated and translated q, and its nc, ns evaluated by torques_at_angle give the torque after the sensor is first turned about its own axis; 'inner-outer' off the positive z axis has the total of torque_lm(q, q2Q-translated rotated Q) but on the positive z axis the m -> -m flip is omitted (sign can be wrong); 'outer-outer' rotates the source correctly but displaces it by (x,-y,z) instead of (x,y,z); any other trans_type raises ValueError.", "quantifier": "all L>=1, all moments, angles, vectors", "why_tests_cant": "adjointness for all inputs", "anchors": ["newt/multipoleLib.py:torque", "newt/translationRecurs.py:apply_trans_mat_right", "newt/rotations.py:rotate_qlm_Ds_right"]}
{"id": "C34", "title": "embed_qlm", "statement": "embed_qlm to a larger degree preserves every entry and pads zeros, to a smaller degree truncates, up-then-down is the identity, equal degree is the identity and a negative degree returns the scalar 0.", "quantifier": "all degrees, all arrays", "why_tests_cant": "all sizes", "anchors": ["newt/multipoleLib.py:embed_qlm"]}
{"id": "C35", "title": "Analytic moments of z-symmetric solids are the volume integrals", "statement": "qlm.cylinder, annulus, cone return density times the integral of the conjugate regular solid harmonic over the documented solid.", "quantifier": "all L, all accepted parameters, all (l,m)", "why_tests_cant": "all degrees, integral over continuum", "anchors": ["newt/qlm.py:cylinder", "newt/qlm.py:annulus", "newt/qlm.py:cone"]}
{"id": "C36", "title": "Analytic moments of polyhedral solids are the volume integrals", "statement": "qlm.tri_prism, tri_iso_prism, rect_prism, tetrahedron, tetrahedron2, pyramid, ngon_prism return the volume integrals over the documented solids.", "quantifier": "all L, all accepted parameters", "why_tests_cant": "all degrees", "anchors": ["newt/qlm.py:tri_prism", "newt/qlm.py:rect_prism", "newt/qlm.py:tetrahedron", "newt/qlm.py:pyramid", "newt/qlm.py:ngon_prism"]}
{"id": "C37", "title": "Guards of the analytic shapes", "statement": "Each analytic shape function (qlm, qlmACH, bigQlm) raises ValueError exactly for the parameters its guard rejects - non-positive heights, radii or sides, an outer radius below the inner one, an azimuthal half-width outside (0, pi], degenerate triangles (d = 0 or y1 = y2), N <= 0, a hole wider than the body, the origin as centre of an outer sphere - and otherwise returns an array of the requested degree with finite entries, except for a handful of accepted degenerate parameters (annulus Ro = Ri, tri_iso_prism2 at pi/2, ngon N = 1, 2, trapezoid of zero widths, platehole at pi/2, bigQlm.annulus r0 = 0) where the result is not finite.", "quantifier": "all parameters", "why_tests_cant": "all reals", "anchors": ["newt/qlm.py"]}
{"id": "C38", "title": "Scaling homogeneity of moments", "statement": "Scaling all lengths by s > 0 multiplies q_lm by s^l at fixed mass, for every shape of qlm.py, and by s^(l+3) at fixed density for every shape of qlmACH.py, with three exceptions: q50 of qlmACH.cone does not scale at all like a fifth-degree moment when the radii differ, and q22 and q44 of qlmACH.cylhole scale as s^3.", "quantifier": "all L, all parameters, all s>0", "why_tests_cant": "all scales", "anchors": ["newt/qlm.py", "newt/qlmACH.py:cone"]}
{"id": "C39", "title": "qlmACH closed forms are the volume integrals and agree with qlm", "statement": "Every low-degree closed form of qlmACH (rect_prism, annulus, cone, cone2, tri_prism, trapezoid, cylindrical_section, tetrahedron, platehole, pyramid, cylhole, cylhole2) is density times the volume integral of r^l conj(Y_lm) over its solid, degrees 0 to 5, except trapezoid (4,4), cone (5,0), cone2 (2,0) and cylhole (2,2), (4,4), which are wrong; where qlm.py has the same solid the two modules agree. For cylhole2 scipy's ellipe/ellipk are the complete elliptic integrals, for cylhole scipy's hyp2f1 is Gauss's series, and the solid is the common part of the cylinder of radius r about z and that of radius R about y.", "quantifier": "all parameters", "why_tests_cant": "all reals", "anchors": ["newt/qlmACH.py:rect_prism", "newt/qlmACH.py:annulus", "newt/qlmACH.py:cone", "newt/qlmACH.py:cone2", "newt/qlmACH.py:tri_prism", "newt/qlmACH.py:trapezoid", "newt/qlmACH.py:cylindrical_section", "newt/qlmACH.py:tetrahedron", "newt/qlmACH.py:cylhole", "newt/qlmACH.py:cylhole2", "newt/qlmACH.py:platehole", "newt/qlmACH.py:pyramid"]}
{"id": "C40", "title": "Point-mass shapes: mass, containment, coverage", "statement": "For positive sizes, a non-zero mass and positive counts, the arrays of annulus, wedge, cone, outer_cone, trapezoid, tri_prism, tetrahedron, ngon_prism, pyramid, cylhole and platehole consist of exactly the cell centres of a regular lattice that lie in the solid, each once, with equal masses summing to the mass asked for, and the lattice's box encloses the solid. cart_2_cyl and cyl_2_cart are inverse; spherical_random_shell points lie on the sphere. Exceptions the model exhibits: rectangle is centred on y with the x count (points leave the brick when the counts differ by two or more); sphere is a cube of side R; pyramid has half the documented base; tri_prism and tetrahedron never fill y<0; trapezoid with beta>=pi/2 returns massless points; platehole uses a circular horizontal section and too short a lattice for theta<0; annulus and tri_prism raise IndexError when no lattice point is inside. As the number of cells grows, through the even numbers, the moments of sphere's array converge to those of a cube of side equal to the radius asked for, as rect_prism gives them, and its (4, 0) moment stays away from that of qlm.sphere.", "quantifier": "all sizes, masses and grid counts", "why_tests_cant": "holds for every grid size and every real dimension", "anchors": ["newt/glibShapes.py"]}
{"id": "C41", "title": "Gauss-Legendre shapes: mass, exactness, extent", "statement": "Given correct Gauss-Legendre rules, gShapeGL.rectangle carries exactly the requested mass, lies in the brick, and its multipole moments through degree 2n-1 are exactly those of the homogeneous brick (hence equal to qlm.rect_prism). sphere, annulus, cone, wedge and tri_prism return exactly the mapped rule points inside a solid, with masses proportional to the weights and the requested total, or raise IndexError when none is inside. The solids differ from the documented ones: annulus and wedge are twice as thick, cone is a double cone, tri_prism covers only the middle half of its y range; dz>dd raises IndexError and dz<dd puts the centre of mass below the mid plane. A right rule exists for every number of points and there is only one: its points are the zeros of the Legendre polynomial, symmetric about the middle, so any correct leggauss leads to the same point masses.", "quantifier": "all counts, sizes, masses, and any rules that are Gauss-Legendre at the counts used", "why_tests_cant": "every degree, grid size and real dimension", "anchors": ["newt/gShapeGL.py"]}
{"id": "C42", "title": "read_gsq / read_gbq decode the triangular listing", "statement": "Line 9+l(l+1)/2+m holds (l,m): the array has the value (times 1e-3*0.01^l for gsq) there, its mirror at -m, missing lines give zero and one line too many raises IndexError.", "quantifier": "all LMax, all files", "why_tests_cant": "all file lengths", "anchors": ["newt/read_multiFor.py:read_gsq", "newt/read_multiFor.py:read_gbq"]}
{"id": "C43", "title": "read_mpc: geometry programs", "statement": "For every well-formed .mpc program, whatever its blanks, comments and number formats, read_mpc returns the moments, up to the requested degree, of the distribution of mass its statements describe (create ten shapes, rotate, translate, add, units, load, zeroqlm, gettotal, puttotal), statements after end being ignored. Recorded defects: rotate/translate/add before any part raise UnboundLocalError; a part created at the origin needs a following line, and a comment there that mentions add adds the part; an unknown shape skips to the next line mentioning create or end and runs off the file if there is none; a trapezoid of equal sides divides by zero; the upper radius of a cone is ignored.", "quantifier": "all programs (lists of statements of any length), all spellings of the numbers, all degrees", "why_tests_cant": "all histories of statements", "anchors": ["newt/read_multiFor.py:read_mpc"]}
{"id": "C44", "title": "Shape.add", "statement": "add makes the mass the sum, the centre of mass the mass-weighted mean, the moments the sum of the embeddings at the largest degree; mixing inner and outer raises TypeError and leaves the object unchanged.", "quantifier": "all shapes, all lists", "why_tests_cant": "all histories", "anchors": ["newt/shapes.py:Shape.add"]}
{"id": "C45", "title": "Shape rotate/translate histories", "statement": "After any sequence of rotate/translate/add on named inner shapes each of which describes some mass distribution (points, a solid, any union of such), every one of them still describes the distribution moved and united in the same way: all its moments, its mass and its centre of mass; an outer-to-inner translate raises ValueError but has already moved com and mesh.", "quantifier": "all operation sequences, all shapes, all distributions", "why_tests_cant": "all histories", "anchors": ["newt/shapes.py:Shape.rotate", "newt/shapes.py:Shape.translate", "newt/shapes.py:Shape.add"]}
{"id": "C46", "title": "Multipole expansion reproduces the point gravity", "statement": "For source points farther from the origin than all sensor points the truncated multipole interaction converges to the Newtonian potential (and torque) of the point arrays as L grows.", "quantifier": "all arrays with max inner radius < min outer radius", "why_tests_cant": "a limit for all configurations", "anchors": ["newt/pg2Multi.py", "newt/multipoleLib.py:torque_lm", "newt/glib.py:point_matrix_gravity"]}
{"id": "C47", "title": "Yukawa inner moments: single moments are right, the array version uses the wrong Bessel order", "statement": "imoment(l, m, lmbd, arr) returns the sum of m_i i_l(r_i/lmbd) conj(Y_lm) for every array of points off the origin, and for l >= 1 raises exactly when some but not all points lie at the origin and neither one point off the origin nor one point in all remains (numpy refuses to broadcast); imoments(L, lmbd, arr) returns in every row n>=1 the sum of m_i i_L(r_i/lmbd) conj(Y_nm) with the Bessel function of the maximum order L instead of i_n, hence agrees with the single moments in the last row but rows n<L are not the Yukawa moments the docstring promises.", "quantifier": "all L, all length scales, all point arrays away from the origin", "why_tests_cant": "it is a statement about every row, order and array; tests compare a few sums", "anchors": ["newt/pg2Multi.py:imoments", "newt/pg2Multi.py:imoment"]}
{"id": "C48", "title": "Outer moments of a solid sphere and annulus (bigQlm)", "statement": "bigQlm.sphere(L, rho, R, x, y, z) with its centre off the origin returns in every entry the outer moments of a point mass rho*4/3*pi*R^3 at that centre; at the origin it raises ValueError. bigQlm.annulus(L, rho, H, Ri, Ro, phic, phih), when it returns, gives for every l<=5 and |m|<=l the density times the volume integral of Y_lm/r^(l+1) over the cylindrical shell sector between z=0 and z=H, radii Ri..Ro, half angle phih, and zero for l>5, except: the sector is the one centred on azimuth -phic (the phase has the wrong sign for outer moments), the (2,0) entry lacks a factor |H|, and the (5,3) entry has a wrong coefficient; these deviations are exact.", "quantifier": "all degrees, densities, radii, heights of either sign, centres and angles", "why_tests_cant": "an identity of integrals for all sizes", "anchors": ["newt/bigQlm.py:sphere", "newt/bigQlm.py:annulus"]}
{"id": "C49", "title": "Shape primitives stand for the documented solid", "statement": "An inner RectPrism, NGon, Sphere, Annulus, TriPrism, Tetrahedron, Pyramid or Cone constructed with a mass has the moments of the homogeneous solid of the given dimensions and that mass, and the given mass; its centre of mass is right for the symmetric solids and is left at the origin (wrong) for TriPrism, Tetrahedron, Pyramid, Cone. Outer primitives hold no moments (Sphere and OuterCone compute and discard them, OuterCone with between a half and three quarters of the density; Annulus has half the density); Cylhole and Platehole renormalise the monopole 4 pi too large; the meshes drawn for Pyramid, NGon and Cylhole are not the solid whose moments are computed.", "quantifier": "all masses, positive dimensions and degrees", "why_tests_cant": "a statement about volume integrals for all sizes and degrees", "anchors": ["newt/shapes.py:Annulus", "newt/shapes.py:Sphere", "newt/shapes.py:RectPrism", "newt/shapes.py:TriPrism", "newt/shapes.py:NGon", "newt/shapes.py:Cone", "newt/shapes.py:Pyramid", "newt/shapes.py:Tetrahedron", "newt/genCAD.py"]}
{"id": "C50", "title": "Numerically integrated inner moments are the volume integrals", "statement": "For every call of the qlmNum moment functions (cyl_mom, cone_mom, trap_mom, steinmetz, platehole): a parameter combination listed as unphysical raises ValueError; otherwise, given a triple integrator accurate to eps, every entry (l,m) with |m|<=l of the returned (L+1)x(2L+1) array is within |dens|*eps of dens times the integral of r^l conj(Y_lm) over the documented solid, the array satisfies q(l,-m)=(-1)^m conj q(l,m), and entries with |m|>l are 0. cone_mom with equal radii divides by zero; platehole with cos(theta)=0 is not finite.", "quantifier": "all integrators accurate to eps, all degrees, densities and dimensions", "why_tests_cant": "the integrands must equal the solid harmonics at every point, every (l,m) and every shape; tests compare a few numbers to a finite tolerance", "anchors": ["newt/qlmNum.py:cyl_integrand_qlm", "newt/qlmNum.py:cart_integrand_qlm_zyx", "newt/qlmNum.py:cyl_mom", "newt/qlmNum.py:cone_mom", "newt/qlmNum.py:trap_mom", "newt/qlmNum.py:steinmetz", "newt/qlmNum.py:platehole"]}
{"id": "C51", "title": "Numerically integrated outer moments are the volume integrals", "statement": "For every call of the bigQlmNum moment functions (annulus, trapezoid, outer_cone): unphysical parameters, including (for annulus and trapezoid) solids that reach the origin, raise ValueError; otherwise, given a triple integrator accurate to eps, every entry with |m|<=l is within |dens|*eps of dens times the (convergent) integral of Y_lm/r^(l+1) over the documented solid, with the reality symmetry and zero corners. outer_cone requires a positive inner radius for this, but its guard lets cones reaching the origin through.", "quantifier": "all integrators accurate to eps, all degrees, densities and dimensions", "why_tests_cant": "existence and value of improper-looking integrals for all parameters", "anchors": ["newt/bigQlmNum.py:cyl_integrand_Qlmb", "newt/bigQlmNum.py:annulus", "newt/bigQlmNum.py:trapezoid", "newt/bigQlmNum.py:outer_cone"]}
{"id": "C52", "title": "Closed forms agree with numerical integration", "statement": "qlm.annulus centred on the x axis with mass = density*volume agrees entry by entry within |dens|*eps with qlmNum.cyl_mom of the same solid, and bigQlm.annulus (phic=0, H>0) agrees within |dens|*eps with bigQlmNum.annulus in every entry up to degree 5 other than (2,0) and (5,+-3).", "quantifier": "all integrators accurate to eps, all accepted parameters, all entries", "why_tests_cant": "the repository's own tests compare the two for a handful of parameter values", "anchors": ["newt/qlm.py:annulus", "newt/qlmNum.py:cyl_mom", "newt/bigQlm.py:annulus", "newt/bigQlmNum.py:annulus"]}
{"id": "C53", "title": "The drawn solid is the solid", "statement": "The mesh of each Shape primitive, and each genCAD solid, occupies exactly the documented point set: Annulus, Cone/frustum (azimuth phic-phih..phic+phih), RectPrism, TriPrism, isosceles prisms, both tetrahedra, Sphere at its centre; the mesh is marked as material exactly when mass > 0. Established deviations: Pyramid is drawn with half the documented base, NGon with half the side and ignoring phic, trapezoid with height along z and thickness along y, Cylhole's mesh neither contains nor is contained in the hole, Platehole's mesh is inside the hole but misses part of it for theta<0 or r*tan(theta)>t, OuterCone is drawn from azimuth 0 to 2*phih and a hole is drawn as material.", "quantifier": "all admissible sizes, angles, masses and degrees, and every point of space", "why_tests_cant": "Equality of two infinite point sets for every real size and angle; a test can probe finitely many points of finitely many solids.", "anchors": ["newt/genCAD.py: annulus, cone, tri_iso_prism, tri_iso_prism2, tri_prism, rect_prism, trapezoid, ngon_prism, tetrahedron, tetrahedron2, pyramid, cylhole, platehole, outercone", "newt/shapes.py: Annulus, RectPrism, TriPrism, Cone, Sphere, NGon, Tetrahedron, Pyramid, OuterCone, Cylhole, Platehole"]}
{"id": "C54", "title": "Yukawa coaxial translation matrices", "statement": "transl_yuk_z_RR_recurs/SR_recurs return matrices with entry(i,j) = (-1)^(i+j) entry(j,i); a displacement by -dr gives the transposed RR matrices; the table of sectorial coefficients equals its closed form in modified spherical Bessel functions (zero below the diagonal). Established defects: with no displacement the RR matrices are diag(1,-1,...,-1) instead of the identity, and the dipole-to-dipole entry differs from the true 3 i_1'(k dr) by 2 i_0(k dr) for every displacement; SR with k*dr <= 0 is not finite; LMax < 0 raises ValueError.", "quantifier": "all LMax, all real dr and k, all matrix indices", "why_tests_cant": "The recursions run over all degrees and every real argument; symmetry, closed form and the sign defect must hold for each of them.", "anchors": ["newt/translationRecurs.py: transl_yuk_z_SR_recurs, transl_yuk_z_RR_recurs, get_bnm, get_anm"]}
{"id": "C55", "title": "qlm.cyl_mom: what the experimental cylinder moment returns", "statement": "cyl_mom(L, M, dens, H, R) ignores dens; raises ValueError whenever M >= L (so never returns a monopole or a sectoral value) and returns otherwise for positive sizes; for M = 0, L >= 1 the value is exactly -(L+3)!/(4 pi^2) times the unit-density moment of the cylinder of radius R and height 2H (hence 0 for odd L); scaling both lengths by c multiplies it by c^(L+3); for M > 0 it may be non-zero although the cylinder's moment vanishes (degree 3, order 1, for every H and R).", "quantifier": "all degrees and orders, all densities, all positive H and R, all scale factors", "why_tests_cant": "The relation to a volume integral holds with a degree-dependent factor for every degree and every real size; no finite table of calls shows it.", "anchors": ["newt/qlm.py:cyl_mom"]}
{"id": "C56", "title": "The Clebsch-Gordan coefficients form an orthogonal matrix", "statement": "For fixed j1, j2 the coefficients returned by cgCoeff (and cgCoeff2) are orthonormal over (m1,m2): the sum of products for (J,M) and (J',M') is 1 if J=J', M=M' and 0 otherwise; they are complete over (J,M): the sum of products for (m1,m2) and (m1',m2') is 1 if equal and 0 otherwise; they obey the raising and lowering recursions of angular momentum; every value returned lies in [-1,1].", "quantifier": "all integer j1, j2, J, J', m's and M's (all admissible J; boundedness for all integers whatever)", "why_tests_cant": "unbounded integers; the sums grow with the arguments and the identity is exact", "anchors": ["newt/clebschGordan.py:cgCoeff", "newt/clebschGordan.py:cgCoeff2"]}
{"id": "C57", "title": "Rotors made of N equally spaced copies", "statement": "Adding rotated copies of a body's moments gives the moments of the body together with its turned copies; for N copies equally spaced about z only the orders m divisible by N survive, each N times the single copy's; the torque harmonics at all other orders vanish, and the force is unchanged when the rotor turns by 2 pi/N. An axisymmetric body gets no torque about z. The LIGO rotor of the example scripts (three copies plus two) has only orders divisible by 2 or 3, the Virgo rotor only even ones.", "quantifier": "all moment arrays, degrees, N, rotor angles, fields and script parameters", "why_tests_cant": "unbounded degrees and N, exact cancellations that floats only approximate", "anchors": ["newt/rotations.py:rotate_qlm", "newt/multipoleLib.py:torque_lm", "newt/multipoleLib.py:multipole_force", "newt/example/test_ligo.py", "newt/example/test_virgo.py"]}
{"id": "C58", "title": "Bodies symmetric about the plane z=0", "statement": "The moments of a body that is its own mirror image in z=0 vanish when l+m is odd; so do those of every upright prism of qlm.py, and this survives rotation about z, translation and conversion to outer moments within the plane, and laying an axisymmetric body on its side. Two such bodies exert no force on each other out of the plane, at any truncation; in particular the forces computed by the example scripts are real and in the plane at every rotor angle.", "quantifier": "all point sets, shapes, degrees, in-plane displacements, rotor angles and script parameters", "why_tests_cant": "unbounded sums, exact cancellations", "anchors": ["newt/pg2Multi.py:qmoments", "newt/qlm.py:cylinder", "newt/qlm.py:annulus", "newt/translations.py:translate_q2Q", "newt/multipoleLib.py:multipole_force", "newt/example/test_ligo.py"]}
{"id": "C59", "title": "Translated outer moments converge to those of the moved body", "statement": "At a fixed degree and order, translate_q2Q of the inner moments of a body and translate_Qlmb of the outer moments of a body tend, as the truncation degree grows, to the outer moments of the body moved by the displacement, provided every mass point is nearer to (for q2Q) or farther from (for Qlmb) the origin than the length of the displacement; the error is below an explicit polynomial in the degree times the corresponding power of the ratio of the distances. Both modules, and end to end from point arrays through qmoments and Qmomentsb.", "quantifier": "all point sets, displacements, degrees, orders, tolerances and truncation degrees", "why_tests_cant": "a statement about the limit of infinitely many truncations, with an error bound for each", "anchors": ["newt/translations.py:translate_q2Q", "newt/translations.py:translate_Qlmb", "newt/translationRecurs.py:translate_q2Q", "newt/translationRecurs.py:translate_Qlmb", "newt/pg2Multi.py:Qmomentsb"]}
{"id": "C60", "title": "Two bodies given by inner moments about their own centres: convergence to Newton", "statement": "For two bodies whose centres are farther apart than the sum of their radii (pairwise over their points), the pipeline used by the example scripts - inner moments of each about its own centre, translate_q2Q of the source by the displacement, then the multipole energy, multipole_force (with any shift of the test body), torque_lm with torques_at_angle, or rotate_qlm followed by multipole_force - comes within any tolerance of what point_matrix_gravity gives for the moved points, for every truncation degree above some bound.", "quantifier": "all finite point sets, displacements, shifts, angles, tolerances, and all moment arrays of the bodies of every degree above the bound", "why_tests_cant": "a statement about every truncation degree beyond a threshold and about all bodies; a test sees finitely many degrees and one tolerance", "anchors": ["newt/translations.py:translate_q2Q", "newt/multipoleLib.py:multipole_force", "newt/multipoleLib.py:torque_lm", "newt/multipoleLib.py:torques_at_angle", "newt/glib.py:point_matrix_gravity", "newt/rotations.py:rotate_qlm"]}
{"id": "C61", "title": "Continuous bodies: the multipole pipeline converges to Newton's integrals", "statement": "Take two bodies put together from solids (cylinders, shells, cones, boxes, prisms, tetrahedra, pyramids, balls, frusta, plates, segments, slanted holes), with densities of either sign, point masses, shifts, rotations and unions, lying in balls whose radii sum to less than the separation. Then Newton's double integrals of the energy, of each force component and of the torque about z exist and are unique, and from any moment arrays that hold the bodies' moments about their own centres, translate_q2Q followed by the multipole energy, multipole_force (with any shift of the test body) or torque_lm with torques_at_angle comes within any tolerance of those integrals for every truncation degree above some bound.", "quantifier": "all finite assemblies of the solids, all displacements, shifts, angles, tolerances and all truncation degrees above the bound", "why_tests_cant": "a statement about all bodies and about every truncation degree beyond a threshold, with an integral as the reference value; a test sees one body, one degree and a quadrature", "anchors": ["newt/translations.py:translate_q2Q", "newt/multipoleLib.py:multipole_force", "newt/multipoleLib.py:torque_lm", "newt/multipoleLib.py:torques_at_angle"]}
{"id": "C62", "title": "From calls of the library to the attraction of the bodies they describe", "statement": "An expression made of qmoments, the solids of qlm.py (cylinder, annulus, cone, sphere, all prisms, tetrahedra, pyramid), rotate_qlm, both translate_qlm functions and sums of arrays evaluates without error at every degree from 1 up to the moments of the mass distribution it describes; for two such expressions, placed farther apart than the sum of their radii, the energy, force and torque computed by the library converge to Newton's integrals over the two distributions as the degree grows. In particular so do the forces the LIGO and Virgo example scripts compute at every rotor angle.", "quantifier": "all expressions of any size, all their real parameters, displacements, angles, tolerances and degrees above the bound", "why_tests_cant": "ranges over all compositions of library calls, all real parameters and all degrees", "anchors": ["newt/qlm.py", "newt/pg2Multi.py:qmoments", "newt/rotations.py:rotate_qlm", "newt/translations.py:translate_qlm", "newt/translationRecurs.py:translate_qlm", "newt/multipoleLib.py:multipole_force", "newt/multipoleLib.py:torque_lm", "newt/example/test_ligo.py", "newt/example/test_virgo.py"]}
{"id": "C63", "title": "Wigner matrices depend only on the rotation and multiply like rotations", "statement": "Whenever rotating space by Euler angles (a',b',g') and then by (a,b,g) is the rotation by (a'',b'',g''), the matrices satisfy Dl(l,a,b,g) Dl(l,a',b',g') = Dl(l,a'',b'',g'') in every entry and rotate_qlm twice gives the same array as rotate_qlm once with (a'',b'',g''), for any array of complex numbers; angles that describe the same rotation give the same matrices and results; and every orientation-preserving linear isometry of space, in particular every such composition, has Euler angles.", "quantifier": "all angles, degrees and arrays, all orientation-preserving isometries", "why_tests_cant": "infinitely many angle triples describe each rotation; a test compares finitely many products in floating point", "anchors": ["newt/rotations.py:Dl", "newt/rotations.py:Dlmn", "newt/rotations.py:rotate_qlm", "newt/rotations.py:wignerDl"]}
{"id": "C64", "title": "Rounding errors of point_matrix_gravity", "statement": "In arithmetic where every operation has relative error at most u (cube: 2u), whatever order numpy sums in and whether or not it fuses multiply and add, each force component returned by point_matrix_gravity differs from the exact one by at most ((1-u)^-(26+M+N) - 1) times the sum over pairs of the absolute values of that component of the pair forces, each torque component by at most ((1-u)^-(28+M+N) - 1) times the corresponding sum; a finite result exists exactly when no two points coincide; action and reaction cancel up to twice that bound; a component without cancellation has that relative error. For IEEE double precision (up to a million points) the factor is at most (26+M+N) 2^-52.", "quantifier": "all point arrays, all rounding functions of the standard model, all summation orders", "why_tests_cant": "ranges over all inputs and all summation orders; a test sees the rounding errors of one run on one machine", "anchors": ["newt/glib.py:gmmr2_array", "newt/glib.py:point_matrix_gravity"]}
{"id": "C65", "title": "Arrays and meshes shared between shapes and callers", "statement": "As long as no two shapes share a centre-of-mass array or a mesh, any sequence of rotate, translate and add calls gives exactly the attribute values and exceptions of the value semantics (C44, C45), whichever moment arrays are shared. A caller who keeps s.qlm keeps a snapshot: no later call changes it. A caller who keeps s.com holds the live array: it changes only when a shape holding it is translated, by exactly that vector, until a rotate or a successful add gives the shape a new array, after which the kept one never changes. The solid of a kept mesh never changes; its sign flag changes only in sum_mesh([s.mesh]) and s.add([]), which set it to True: so drawing a single hole first makes a later add draw it as added material although the moments still subtract it. After c = copy.copy(s), s.translate moves c.com but neither c.qlm nor c.mesh; s.rotate changes nothing of c.", "quantifier": "all histories of rotate, translate, add, copy.copy and genCAD.sum_mesh over any number of shapes, all arguments", "why_tests_cant": "ranges over all interleavings of calls and all aliasing patterns", "anchors": ["newt/shapes.py:Shape.rotate", "newt/shapes.py:Shape.translate", "newt/shapes.py:Shape.add", "newt/genCAD.py:sum_mesh", "newt/genCAD.py:translate_mesh", "newt/genCAD.py:rotate_mesh"]}
{"id": "C66", "title": "Octave pointMatrixGravity and array moves against newt.glib", "statement": "For all point arrays, Octave's pointMatrixGravity(a, b) returns the same force and torque as newt.glib.point_matrix_gravity, and fails exactly when it does; translatePMArray equals translate_point_array. rotatePMArray(a, angle, n) equals rotate_point_array(a, -angle, n) for every non-zero axis: the same angle turns the other way, so a script carried over must negate its angles. A zero axis gives NaN for every non-empty array. The dumbbell torque of the file's own test has its closed form for all masses, lengths and angles.", "quantifier": "all point arrays, angles, axes and translations", "why_tests_cant": "ranges over all real arrays and angles", "anchors": ["matlab-src/pointMatrixGravity.m", "matlab-src/Gmmr2Array.m", "matlab-src/translatePMArray.m", "matlab-src/rotatePMArray.m", "newt/glib.py:point_matrix_gravity", "newt/glib.py:rotate_point_array"]}
{"id": "C67", "title": "Octave computeMoments against the inner moments", "statement": "For 0 <= m <= l and every point array, Octave's computeMoments(l, m, a) is the inner moment of the array in which every point off the z axis is mirrored in the plane z = 0 (its polar angle is taken with the wrong sign of z there, and rightly on the axis): so it is the true moment when l + m is even, the negative of newt's moment for m >= 1 and l + m odd, and for m = 0 and odd l the contribution of off-axis points has the wrong sign while that of axis points has the right one. For m < 0 or m > l it fails. computeMomentSummary(L, a) lists exactly the moments with 1 <= l <= L, 0 <= m <= l, L(L+3)/2 in number.", "quantifier": "all point arrays, all degrees and orders", "why_tests_cant": "ranges over all real arrays and all (l, m)", "anchors": ["matlab-src/computeMoments.m", "matlab-src/computeMomentSummary.m", "matlab-src/YLM.m", "newt/pg2Multi.py:qmoment"]}
{"id": "C68", "title": "Octave regular point arrays", "statement": "genPointMassRect fills the centred brick and genPointMassAnnlSheet the annulus about the x axis (given radii 0 <= r1 < r2, positive thickness and non-zero mass): exactly the midpoints of the cells of the stated lattice that lie in the solid, each once, equal masses that add up to the given mass, and both are symmetric under v -> -v. genPointMassRect gives the points of newt.glibShapes.rectangle where that function is right (equal counts in x and y). genPointMassLine puts N points of mass m at z = k dz whatever zstart is: it is what was asked for exactly when zstart = 0. genPointMassXRing puts N >= 1 points of mass M/N on the circle of radius |r| about the x axis, first point on the z axis, balanced for N >= 2; N = 0 fails.", "quantifier": "all sizes, masses and point counts", "why_tests_cant": "ranges over all reals and all counts", "anchors": ["matlab-src/shapes/genPointMassRect.m", "matlab-src/shapes/genPointMassAnnlSheet.m", "matlab-src/shapes/genPointMassLine.m", "matlab-src/shapes/genPointMassXRing.m"]}
{"id": "C69", "title": "Octave random point arrays", "statement": "genPointMassRandomDisk fails exactly for a negative radius or outer <= inner; otherwise, whatever is drawn, it returns the first NPts draws that land in the annulus (so NPts points of the given mass with x = 0 and inner <= radius <= outer), needs more draws while fewer have landed, and later draws never change the result. genPointMassRandomRectangle fails exactly for a negative width, and puts one point per pair of draws inside the rectangle. genPointMassSphericalRandomShell puts equal masses adding up to M on the sphere of radius |R|, one for each draw inside the unit disc, height R(1 - 2 s) for a draw at squared radius s. scatterPMMassesYZGrid keeps masses, order and z and moves x and y (not y and z) by the grid size times the draws.", "quantifier": "all draw sequences and parameters", "why_tests_cant": "ranges over all outcomes of the random generator", "anchors": ["matlab-src/shapes/genPointMassRandomDisk.m", "matlab-src/shapes/genPointMassRandomRectangle.m", "matlab-src/shapes/genPointMassSphericalRandomShell.m", "matlab-src/scatterPMMassesYZGrid.m"]}
{"id": "C70", "title": "Octave height maps and scan levelling", "statement": "genPointMassArrayFrom2DArray with positive spacings and density returns exactly the points at cell centres (centred on the origin) and heights (k + 1/2) dz with (k + 1) dz at most the cell's height, each once, nothing for NaN or negative heights; its mass is at most density times the volume under the map and falls short by at most one layer per cell; with a non-positive product of spacings and density it returns nothing. scanCenterAndRemoveLinear takes a plane off the heights and scales by 1/1000 point for point; when the regression solves its normal equations (it does, uniquely, when the points are not in line) the result has mean zero in x, y and z, no slope in x or y, no plane taken off it makes it flatter, and an exact plane becomes all zeros.", "quantifier": "all maps, spacings, densities and scans", "why_tests_cant": "ranges over all real arrays", "anchors": ["matlab-src/shapes/genPointMassArrayFrom2DArray.m", "matlab-src/scanCenterAndRemoveLinear.m"]}
{"id": "C71", "title": "Turning a rotor step by step, and the harmonics of the measured force", "statement": "One rotate_qlm_Ds step with wignerDl(L+1, a, b, g)[:-1] equals rotate_qlm(q, a, b, g); k steps equal the single rotation by any angles that describe the k turns together; k steps about z equal rotate_qlm(q, k a, 0, 0), and nAng steps of 2 pi/nAng give back q. So row k of test_ligo2.py's force table is the force at angle (k+1) dphi, that is row (k+1) mod nAng of test_ligo.py's. The force at rotor angle x is the sum over m of e^{-imx} times column m of multipole_force_m, and with more than 2 LMax equally spaced angles the discrete Fourier transform of the sampled forces returns these columns exactly.", "quantifier": "all moment arrays, degrees, angles and numbers of steps", "why_tests_cant": "ranges over all arrays and any number of loop iterations", "anchors": ["newt/example/test_ligo2.py", "newt/example/test_ligo.py", "newt/example/test_virgo.py", "newt/rotations.py:rotate_qlm_Ds", "newt/multipoleLib.py:multipole_force_m"]}
{"id": "C72", "title": "How many degrees are enough: truncation error of force and torque", "statement": "For test points nearer to the origin than every source, the force vector multipole_force returns at truncation degree L >= 1 (moments from qmoments and Qmomentsb, any shift of the test body) differs from the force point_matrix_gravity gives for the shifted points by a vector of length at most the sum over pairs of G m M (r/R)^L (L+1-L r/R)/(R-r)^2, and the torque from torque_lm and torques_at_angle (either body turned, any angle) by at most the same sum with another factor r. With all test points within a and all sources beyond b the sums are below G m M (a/b)^L (L+1-L a/b)/(b-a)^2. Two points on one ray attain the bound.", "quantifier": "all point arrays with the test body inside, all shifts, angles and degrees", "why_tests_cant": "quantifies over all arrays, positions and truncation degrees; a test can only compare a few sums", "anchors": ["newt/multipoleLib.py:multipole_force", "newt/multipoleLib.py:torque_lm", "newt/multipoleLib.py:torques_at_angle", "newt/pg2Multi.py:qmoments", "newt/pg2Multi.py:Qmomentsb", "newt/glib.py:point_matrix_gravity"]}
{"id": "C73", "title": "How many degrees are enough when each body is described about its own centre", "statement": "When the moments of two bodies of point masses are taken about their own centres (q of the test body, translate_q2Q by t of the source's q moments), and every test point distance r and source point distance s satisfy r + s < |t|, then the energy pairing at truncation degree L differs from the Newtonian energy by at most the sum over pairs of |c m M| ((r+s)/|t|)^(L+1)/(|t|-r-s); multipole_force (any shift of the test body) from point_matrix_gravity of the shifted points by a vector of length at most the sum of G m M ((r+s)/|t|)^L (L+1-L (r+s)/|t|)/(|t|-r-s)^2; torque_lm/torques_at_angle at any angle by that with a factor r; the example scripts' loop body (rotate_qlm then multipole_force) by the force bound. For bodies in balls of radii a and b the bounds collapse to one number times the total masses, and for mass distributions built from the library's solids one constant per pair of bodies times the same tails bounds the distance from the double integrals.", "quantifier": "all point arrays, centres, shifts, angles and truncation degrees", "why_tests_cant": "quantifies over all arrays, positions and truncation degrees; a test can only compare a few sums", "anchors": ["newt/translations.py:translate_q2Q", "newt/multipoleLib.py:multipole_force", "newt/multipoleLib.py:torque_lm", "newt/multipoleLib.py:torques_at_angle", "newt/rotations.py:rotate_qlm", "newt/glib.py:point_matrix_gravity"]}
{"id": "C74", "title": "What save_shape leaves on disk", "statement": "After any program of rotations, translations, additions and save_shape calls on named shapes (exceptions caught), for every base name the .txt file holds exactly what was true of the shape at the last save under that name: labelled 'Inner moments' with the moments, mass and centre of mass of the body the shape then stood for, or labelled 'Outer moments' when the shape had been carried outside; later moves of the shape and saves under other names do not change the file, files of names never used do not appear, and the .stl and .txt files of two names never collide. A Shape without a mesh writes nothing. If the installed cadquery makes Workplane iterable, save_stl raises TypeError before anything is written and no program ever saves a file.", "quantifier": "all programs (lists of move, add and save statements), shapes and file names", "why_tests_cant": "ranges over all histories of moves and saves", "anchors": ["newt/shapes.py:Shape.save_shape", "newt/shapes.py:Shape.rotate", "newt/shapes.py:Shape.translate", "newt/shapes.py:Shape.add", "newt/genCAD.py:save_stl"]}
{"id": "C75", "title": "Rounding in moves of point arrays", "statement": "Computed in rounded arithmetic (every operation correct to a relative error u, the sine to a relative error 2u, the dot products added up in any order), translate_point_array and rotate_point_array copy the masses exactly; a translation is off by a relative error u in each coordinate; a rotation moves every point to within 7((1-u)^-26 - 1) times its distance from the origin of where the exact rotation puts it; and after any program of n translations and rotations every point is within ((1+e)^n - 1)(r + total length of the translations) of the exactly moved one, where r bounds the initial distances. In double precision that is at most 364 n 2^-52 (r + total length) for up to 10^9 moves. A finite result exists unless a rotation axis is zero.", "quantifier": "all rounding functions of relative accuracy u, all point arrays, angles, axes, and all sequences of moves", "why_tests_cant": "ranges over every rounding behaviour, every order of summation and every history of moves", "anchors": ["newt/glib.py:translate_point_array", "newt/glib.py:rotate_point_array"]}
{"id": "C76", "title": "Rounding in move-then-measure programs", "statement": "Move two point arrays by any programs of translate_point_array and rotate_point_array calls and hand the results to point_matrix_gravity, all in rounded arithmetic: if the exactly moved points of the two arrays stay at least d apart and the accumulated displacements e1 + e2 of C75 are at most d/2, the computation ends with finite numbers, each force component is within ((1+g)(1+22(e1+e2)/d) - 1) times the sum of all the pair attractions G m m'/d^2 of the exact force between the exactly moved arrays, and each torque component within twice ((1+g')(1+22(e1+e2)/d)(R+e1) - R) times that sum, with g, g' the summation errors of C64 and R the bound on the lever arms; with explicit numbers in double precision for up to 10^9 moves of each array and 10^6 points.", "quantifier": "all rounding functions of relative accuracy u, all pairs of arrays, and all pairs of move programs", "why_tests_cant": "ranges over every rounding behaviour, every summation order and every history of moves", "anchors": ["newt/glib.py:translate_point_array", "newt/glib.py:rotate_point_array", "newt/glib.py:point_matrix_gravity"]}
{"id": "C77", "title": "Finer point arrays converge to the solids", "statement": "Take a point array made by glibShapes (rectangle with equal counts along x and y, triangular prism, tetrahedron, pyramid, trapezoid, crossed-cylinder hole, slanted plate hole, annulus, wedge, cone or outer cone), or given point masses, moved and turned by glib and joined in any way, and let all the counts grow. Then every moment that PG2Multi.qmoments computes from the array tends to the moment of the homogeneous solid of that mass (so to what qlm.rect_prism returns for the brick, qlm.annulus for the annulus and the wedge, qlm.cone for the cone); the force and the torque that glib.point_matrix_gravity, or point_matrix_yukawa with lambda <> 0, computes between two such arrays in separate balls tend to the double integral of the attraction over the two solids; and the array force and the force that multipole_force computes from the moments of the solids come within any eps of each other once counts and degree are large enough. Arrays with any counts exist (the triangular prism and the annulus raise IndexError only for small counts).", "quantifier": "all dimensions, masses, moves, orders of joining, and all counts above a threshold for each eps", "why_tests_cant": "a limit over all counts; a test sees finitely many arrays", "anchors": ["newt/glibShapes.py:rectangle", "newt/glibShapes.py:tri_prism", "newt/glibShapes.py:tetrahedron", "newt/glibShapes.py:pyramid", "newt/glibShapes.py:trapezoid", "newt/glibShapes.py:cylhole", "newt/glibShapes.py:platehole", "newt/glibShapes.py:annulus", "newt/glibShapes.py:wedge", "newt/glibShapes.py:cone", "newt/glibShapes.py:outer_cone", "newt/pg2Multi.py:qmoments", "newt/glib.py:point_matrix_gravity", "newt/glib.py:point_matrix_yukawa"]}
{"id": "C78", "title": "How fine a point array must be", "statement": "Take an array made by glibShapes.rectangle with equal counts along x and y (cell edges x/n, y/n, z/k), or given point masses, moved and turned by glib and joined in any way; let it lie in the ball of radius r, and let delta be the sum over its bricks of |mass| times a quarter of the three cell edges. Then, with every constant explicit: a function that changes by at most K per unit length has a mass-weighted sum over the array within K delta of its integral over the solid; the moment of degree l that PG2Multi.qmoments returns is within 2 l sqrt((2l+1)/4pi) r^(l-1) delta of that of the solid (so of what qlm.rect_prism returns, for one brick); and the force that glib.point_matrix_gravity returns for two such arrays, the second moved by t with gap <= |t| - r1 - r2, is within G (2/gap^3)(M1 delta2 + M2 delta1) of Newton's double integral in each component, the torque within G ((2 r1/gap^3)(M1 delta2 + M2 delta1) + M2 delta1/gap^2); point_matrix_yukawa obeys the same bounds times |alpha| for every lambda > 0. In particular two bricks with cell edges at most h have a force error of at most 3 h G m1 m2 / gap^3.", "quantifier": "all dimensions, masses of either sign, counts, moves, orders of joining, displacements and degrees", "why_tests_cant": "an error bound for all counts and all positions; a test compares a few arrays with a few integrals", "anchors": ["newt/glibShapes.py:rectangle", "newt/pg2Multi.py:qmoments", "newt/glib.py:point_matrix_gravity", "newt/glib.py:point_matrix_yukawa", "newt/glib.py:translate_point_array", "newt/glib.py:rotate_point_array"]}
{"id": "C79", "title": "Rounding errors of point_matrix_yukawa", "statement": "When each floating-point operation and each square root has relative error at most u, each cube and each exponential at most 2u, and numpy adds in whatever order it likes, glib.point_matrix_yukawa for m points on n points, none coinciding and no pair further apart than d, with lambda > 0, returns each force component within (exp(a7 d/lambda)(1-u)^-(33+m+n) - 1) times the sum of the sizes of that component's m n terms, and each torque component within the same with 35 in place of 33, where a7 = (1-u)^-7 - 1 is the error of the computed r/lambda: the exponential multiplies it by its argument. The bound is at most (2k + 56 d/lambda) u as long as k u <= 1/2 and 14 (d/lambda) u <= 1/2. In double precision, for up to a million points and up to a million decay lengths: at most (33+m+n + 28 d/lambda)/2^52 times the size. If the terms of a component have one sign the relative error is bounded. A finite result is possible exactly when no two points coincide.", "quantifier": "all arrays, strengths alpha, decay lengths lambda > 0, roundings of the stated accuracy, and orders of summation", "why_tests_cant": "the bound must hold for every rounding and every order of summation; a test sees one machine and one order", "anchors": ["newt/glib.py:yukawa_array", "newt/glib.py:point_matrix_yukawa"]}
{"id": "C80", "title": "The error budget of the two ways to compute a force", "statement": "A solid body can be given to the toolkit as a point array (glibShapes, digitised cell by cell, masses of sizes adding up to M1, M2 and mass-weighted cell sizes d1, d2) or as multipole moments to degree L. For bodies in balls of radii r1, r2 at least gap apart, multipoleLib.multipole_force at an offset and glib.point_matrix_gravity of the shifted arrays agree in each component within truncation + fineness = G M1 M2 tail_L + 2 G (M1 d2 + M2 d1)/gap^3, where tail_L is the explicit geometric tail of C72; torques_at_angle and the z torque of the turned arrays within r1 times that + G M2 d1/gap^2. When the arrays are also moved and attracted in rounded arithmetic (rotate_point_array, translate_point_array, point_matrix_gravity), the bound grows by the rounding term, ((1 + e)(1 + 22 moved/gap) - 1) G M1 M2/gap^2, with e the accumulated error of 26 + m + n operations. The machine's gravity and Yukawa forces differ from the integrals of the law over the two bodies by at most fineness + rounding. For two bricks with cell edges at most h (qlm.rect_prism and glibShapes.rectangle) the budget is G |m1| |m2| (tail_L + 3h/gap^3).", "quantifier": "all bodies with a digitised array (every glibShapes solid of C61/C77), all degrees L >= 1, offsets, separations, angles, roundings of the stated accuracy and orders of summation", "why_tests_cant": "each term of the bound is for every body, every degree and every rounding; a comparison of two numbers at one setting cannot tell which of three errors it saw", "anchors": ["newt/multipoleLib.py:multipole_force", "newt/multipoleLib.py:torque_lm", "newt/multipoleLib.py:torques_at_angle", "newt/translations.py:translate_q2Q", "newt/glib.py:point_matrix_gravity", "newt/glib.py:point_matrix_yukawa", "newt/glibShapes.py:rectangle", "newt/qlm.py:rect_prism"]}
{"id": "C81", "title": "Moment arrays in memory: no call writes to its arguments, and when arrays may be thought of as values", "statement": "rotate_qlm, rotate_qlm_Ds, rotate_qlm_Ds_right, apply_trans_mat, apply_trans_mat_right, translate_qlm, translate_Qlmb, translate_q2Q (translationRecurs and translations), embed_qlm and torque never write to an array that existed before the call, also when they raise (multipoleLib.torque conjugates and scales only its own copy). What they return is an array of its own, with one exception: translations.translate_qlm and translate_Qlmb by the zero vector return the argument itself, so after y = translate_qlm(x, 0); y *= 2, x is doubled too. Consequently a program of calls, assignments, stores x[i,j]=v and in-place updates x*=c, x+=y, x-=y, however long and whatever it raises, acts as if names carried values, shared exactly between the names of one array; a program that gives no array a second name acts as if every name had a value of its own. The shape-file reader is such a program: its sum and its work array never become one.", "quantifier": "all arrays, all arguments, all memories, all programs of such statements of any length, with the exceptions they raise", "why_tests_cant": "aliasing shows only in a later in-place change of another name; every history of calls and updates must be covered, and a test of one call compares values, not identities", "anchors": ["newt/translations.py:translate_qlm", "newt/translations.py:translate_Qlmb", "newt/translations.py:translate_q2Q", "newt/translationRecurs.py:translate_qlm", "newt/translationRecurs.py:translate_Qlmb", "newt/translationRecurs.py:translate_q2Q", "newt/translationRecurs.py:apply_trans_mat", "newt/translationRecurs.py:apply_trans_mat_right", "newt/rotations.py:rotate_qlm", "newt/rotations.py:rotate_qlm_Ds", "newt/rotations.py:rotate_qlm_Ds_right", "newt/multipoleLib.py:embed_qlm", "newt/multipoleLib.py:torque", "newt/read_multiFor.py:read_mpc"]}
{"id": "C82", "title": "Gauss-Legendre bricks: geometric convergence of point-mass gravity", "statement": "Build solids from gShapeGL.rectangle bricks with more than N/2 points along each edge, and from single masses, and move, turn and join them with glib. Every polynomial of degree at most N then has the same integral over the point array as over the solid: PG2Multi.qmoments through degree N are the moments of the solid. glib.point_matrix_gravity of two such arrays, the second one moved by t, gives the force between the solids within 2 G M1 M2 k^N (N+1-Nk)/(|t|-r1-r2)^2, with k=(r1+r2)/|t| for balls of radii r1 and r2 about the two origins, and the torque within r1 times that. For two bricks with n points along each edge the error is at most 4 n G |m1 m2| k^(2n-1)/(|t|-r1-r2)^2, geometrically small in n; and some number of points reaches any accuracy, whatever the arrays are made of.", "quantifier": "all numbers of points, bricks, masses, motions, numbers of parts, displacements beyond the sum of the radii, and all suppliers of Gauss-Legendre rules", "why_tests_cant": "a bound on the error for all shapes, orientations and numbers of points cannot be sampled, and the exact force between two solids is a six-fold integral a test does not have", "anchors": ["newt/gShapeGL.py:rectangle", "newt/glib.py:point_matrix_gravity", "newt/glib.py:translate_point_array", "newt/glib.py:rotate_point_array", "newt/pg2Multi.py:qmoments"]}
{"id": "C83", "title": "What the gShapeGL arrays converge to", "statement": "Make point arrays with gShapeGL from Gauss-Legendre rules of more and more points along each axis (annulus, wedge and cone with dz = dd), and move, turn and join them with glib, together with glibShapes arrays. The arrays exist for every number of points large enough, lie in one ball, and stand in the limit for a uniform solid of the given mass, though the test that keeps or drops a point is discontinuous and the rules are of no fixed order there: rectangle for the x by y by z brick, sphere for the ball, annulus and wedge for a ring or sector of height 2t, cone for two cones meeting at their apices at the origin, each of height H, tri_prism with 0 <= y1 < y2 for the part of the prism between y = y2/4 and y = 3 y2/4. PG2Multi.qmoments tends to the moments of that solid, for every degree; glib.point_matrix_gravity and point_matrix_yukawa of two arrays farther apart than their balls tend to the force and torque between the two solids, however the numbers of points of the two grow; and the multipole force with moments of large degree agrees with the direct sum over large arrays. In particular gShapeGL.annulus and wedge of thickness t have in the limit the moments of qlm.annulus with height 2t, and gShapeGL.rectangle those of qlm.rect_prism.", "quantifier": "all shapes, sizes and masses, all motions and unions, all degrees, every tolerance, all larger numbers of points and all suppliers of Gauss-Legendre rules", "why_tests_cant": "convergence is a statement about all large arrays, and a wrong solid of similar size passes a comparison at one number of points with a loose tolerance", "anchors": ["newt/gShapeGL.py:rectangle", "newt/gShapeGL.py:sphere", "newt/gShapeGL.py:annulus", "newt/gShapeGL.py:cone", "newt/gShapeGL.py:wedge", "newt/gShapeGL.py:tri_prism", "newt/glib.py:point_matrix_gravity", "newt/glib.py:point_matrix_yukawa", "newt/pg2Multi.py:qmoments"]}
{"id": "C84", "title": "Rounding errors of PG2Multi.qmoment", "statement": "PG2Multi.qmoment in floating point, where every operation is rounded with relative error at most u, np.sum adds in any order, arccos, arctan2 and the power have relative error 2u and sph_harm absolute error eta: the moment returned is within K (sqrt u + eta + the growth of 6+4l+n roundings) times the sum of |mass| r^l of the exact one, with K depending on l and m only. The square root is real: the polar angle is taken as arccos(z/r), so for a unit mass at (2^-27, 0, 1) every binary64 result of q11 is exactly 0 however good the library is, and the error exceeds sqrt(u)/16 times that sum. For points at a distance from the z axis of at least s times that from the origin the loss is only of order u/s. In binary64, with up to a million points none of which is at the origin, a result exists: z/r never rounds to a number beyond 1, so arccos is never nan; and it is within K 2^-26 times that sum.", "quantifier": "all arrays of points, masses of any sign, degrees and orders, rounded arithmetics, library functions of the stated accuracy and orders of summation", "why_tests_cant": "a test compares a few well-placed points with a tolerance; the lost half of the digits needs a point near the axis", "anchors": ["newt/pg2Multi.py:qmoment"]}
{"id": "C85", "title": "Rounding errors of the array of PG2Multi.qmoments", "statement": "PG2Multi.qmoments in floating point, with the loop over degrees and orders, the entries of negative order filled in as (-1)^m times the conjugate by an addition of the flipped array, and the column of order 0 halved by a complex division. Every entry n, m with |m| <= n <= L, for arrays with no point at the origin, is within K (sqrt u + eta + the growth of 8+4n+N roundings) times the sum of |mass| r^n of the exact array's, N being the number of points and K depending on n and m only, whatever L; away from the z axis u/s stands in place of the root. In binary64 an array always comes out. For a unit mass at (2^-27, 0, 1) the entries 1,1 and 1,-1 come out as 0 although the exact ones exceed sqrt(u)/16 times that sum.", "quantifier": "all arrays of points away from the origin, degrees, orders, largest degrees, rounded arithmetics, library functions of the stated accuracy and orders of summation", "why_tests_cant": "a test compares a few well-placed points with a tolerance; the lost half of the digits needs a point near the axis", "anchors": ["newt/pg2Multi.py:qmoments"]}
{"id": "C86", "title": "Rounding errors of the outer moments", "statement": "PG2Multi.Qmomentb and Qmomentsb in floating point, with numpy's complex division of each term by r^(l+1), the entries of negative order filled in and those of order 0 halved. With no point at the origin, the moment and every entry n, m of the array, |m| <= n <= L, are within K (sqrt u + eta + the growth of 13+4n+N roundings) times the sum of |mass| / r^(n+1) of the exact ones, K depending on n and m only; for points away from the z axis u/s stands in place of the root. With a point at the origin both are exactly 0, in rounded as in exact arithmetic. In binary64 results exist for every array of numbers.", "quantifier": "all arrays of points, degrees, orders, largest degrees, rounded arithmetics, library functions of the stated accuracy and orders of summation", "why_tests_cant": "a test compares a few well-placed points with a tolerance; the lost half of the digits needs a point near the axis", "anchors": ["newt/pg2Multi.py:Qmomentb", "newt/pg2Multi.py:Qmomentsb"]}
