-Q theories Verif
theories/Base.v
theories/M_IntMath.v
theories/F_IntMath.v
theories/M_Morton.v
theories/F_Morton.v
theories/M_NdtreeIndex.v
theories/F_NdtreeIndex.v
theories/P_Indexing.v
theories/M_Num.v
theories/F_Num.v
theories/M_Haar.v
theories/F_Haar.v
theories/M_Haar3.v
theories/F_Haar3.v
theories/P_Haar.v
theories/M_Ndtree.v
theories/M_Wavelet.v
theories/F_Wavelet.v
theories/S_Field.v
theories/F_Hash.v
theories/F_Wavelet2.v
theories/F_Leaves.v
theories/F_WavTree.v
theories/F_WavMap.v
theories/F_WavHash.v
theories/M_WavHist.v
theories/F_WavHist.v
theories/P_Hash.v
theories/P_Wavelet.v
theories/M_Grid.v
theories/P_Grid.v
theories/M_Point.v
theories/P_Point.v
theories/M_Ray.v
theories/P_Ray.v
theories/M_Subtree.v
theories/P_Subtree.v
theories/M_Queue.v
theories/P_Queue.v
theories/M_Adjacency.v
theories/P_Adjacency.v
theories/M_Image.v
theories/P_Image.v
theories/M_Occupancy.v
theories/P_Occupancy.v
theories/M_Pipeline.v
theories/P_Pipeline.v
theories/M_Config.v
theories/P_Config.v
theories/M_HashedBlocks.v
theories/P_HashedBlocks.v
theories/M_Interpolate.v
theories/P_Interpolate.v
theories/M_Octree.v
theories/F_Octree.v
theories/P_Octree.v
theories/M_VolOctree.v
theories/P_VolOctree.v
theories/M_Chunked.v
theories/F_Chunked.v
theories/F_ChunkedSim.v
theories/F_ChunkedWav.v
theories/M_ChunkedHist.v
theories/F_ChunkedMap.v
theories/P_Chunked.v
theories/M_Accel.v
theories/F_Accel.v
theories/P_Accel.v
theories/M_ThreadPool.v
theories/F_ThreadPool.v
theories/F_ThreadPool2.v
theories/P_ThreadPool.v
theories/M_Stream.v
theories/F_Stream.v
theories/F_Stream2.v
theories/F_Stream3.v
theories/F_Stream4.v
theories/P_Stream.v
theories/M_Classified.v
theories/F_Classified.v
theories/F_Classified2.v
theories/F_Classified3.v
theories/F_Classified4.v
theories/P_Classified.v
theories/M_RangeBounds.v
theories/F_RangeBounds.v
theories/P_RangeBounds.v
theories/M_Measure.v
theories/F_Measure.v
theories/P_Measure.v
theories/M_Intersector.v
theories/P_Intersector.v
theories/P_Intersector2.v
theories/P_Intersector3.v
theories/S_Integrate.v
theories/M_Integrator.v
theories/F_Integrator.v
theories/F_Integrator2.v
theories/F_Integrator3.v
theories/P_Integrator.v
theories/P_Integrator2.v
theories/F_IntegratorC.v
theories/F_IntegratorC2.v
theories/P_Integrator3.v
theories/M_Sdf.v
theories/F_Sdf.v
theories/F_Sdf2.v
theories/F_Sdf3.v
theories/P_Sdf.v
theories/M_Publish.v
theories/F_Publish.v
theories/F_Publish2.v
theories/F_Publish3.v
theories/P_Publish.v
theories/P_Ray2.v
theories/M_RayTrace.v
theories/P_RayTrace.v
theories/M_Undistort.v
theories/P_Undistort.v
theories/M_Input.v
theories/P_Input.v
theories/F_IntegratorP.v
theories/P_Integrator4.v
theories/P_Intersector4.v
theories/M_Pose.v
theories/P_Pose.v
theories/P_Pose2.v
theories/P_Pose3.v
theories/M_CoarseToFine.v
theories/P_CoarseToFine.v
theories/M_FixedRes.v
theories/P_FixedRes.v
theories/M_PublishCloud.v
theories/P_PublishCloud.v
theories/P_PublishCloud2.v
theories/M_Crop.v
theories/P_Crop.v
theories/M_ApproxTrig.v
theories/F_ApproxTrig.v
theories/P_ApproxTrig.v
theories/M_ApproxFloat.v
theories/P_ApproxTrig2.v
theories/M_Projection.v
theories/P_Projection.v
theories/M_PublishChunked.v
theories/F_PublishChunked.v
theories/P_PublishChunked.v
theories/M_Fov.v
theories/P_Fov.v
theories/M_Viz.v
theories/S_Viz.v
theories/F_Viz.v
theories/F_Viz2.v
theories/F_Viz3.v
theories/F_Viz4.v
theories/P_Viz.v
theories/M_Sampler.v
theories/P_Sampler.v
theories/M_FileIO.v
theories/P_FileIO.v
theories/M_Server.v
theories/P_Server.v
theories/M_AccelAlloc.v
theories/F_AccelAlloc.v
theories/P_AccelAlloc.v
theories/M_Python.v
theories/P_Python.v
theories/M_Rosbag.v
theories/P_Rosbag.v
theories/M_NaN.v
theories/P_NaN.v
theories/M_Ouster.v
theories/P_Ouster.v
theories/M_FloatIndex.v
theories/F_Float.v
theories/P_FloatIndex.v
theories/M_FloatNum.v
theories/F_FloatHaar.v
theories/F_FloatTree.v
theories/P_FloatMap.v
theories/M_Factory.v
theories/P_Factory.v
theories/M_Schema.v
theories/P_Schema.v
theories/M_Slice.v
theories/P_Slice.v
theories/M_Prob.v
theories/P_Prob.v
theories/P_TreeOrder.v
theories/M_IndexHash.v
theories/P_IndexHash.v
theories/P_Containers.v
theories/M_CellWidth.v
theories/P_CellWidth.v
theories/M_CameraScan.v
theories/P_CameraScan.v
theories/M_Stopwatch.v
theories/P_Stopwatch.v
theories/P_CameraScan2.v
theories/P_Undistort2.v
theories/P_Rounded.v
theories/P_Block.v
theories/P_NaN2.v
theories/P_Extra.v
theories/P_ScanHistory.v
theories/P_Sdf2.v
theories/M_ProjectorScan.v
theories/P_ProjectorScan.v
theories/P_Details.v
theories/P_IndexRange.v
theories/M_SdfAccuracy.v
theories/P_SdfAccuracy.v
theories/P_SdfAccuracyR.v
theories/P_Azimuth.v
theories/P_Level.v
theories/P_LidarScan.v
theories/P_OctreeHistory.v
theories/M_BitOps.v
theories/P_BitOps.v
theories/P_BeamScan.v
theories/T_RepoTests.v
theories/P_FloatNode.v
theories/M_Logging.v
theories/P_Logging.v
theories/F_SdfReach.v
theories/P_SdfReach.v
theories/F_SdfReach2.v
theories/P_SdfReach2.v
theories/M_ConfigReport.v
theories/P_ConfigReport.v
theories/M_IndexInt.v
theories/P_IndexInt.v
theories/M_HashedInt.v
theories/P_HashedInt.v
theories/M_IntMath32.v
theories/P_IntMath32.v
theories/M_Grid32.v
theories/P_Grid32.v
